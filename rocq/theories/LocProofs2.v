From Coq Require Import Lia String.
From Verif Require Import Base NumModel HeapModel StringModel ParseModel ParseSpec ParseProofs LocModel LocSpec LocProofs.
Local Open Scope list_scope.
Local Open Scope Z_scope.

Lemma skip_idem : forall s b, skip (skip_ws b s) = skip_ws b s.
Proof.
  induction s as [|x r IH]; intros b; cbn [skip_ws]; [reflexivity|].
  destruct b.
  - destruct (Z.eqb_spec x 0) as [->|N]; [reflexivity|]. destruct (x =? 10); apply IH.
  - destruct (isspace x) eqn:E; [apply IH|]. destruct (x =? 59) eqn:F; [apply IH|]. cbn [skip_ws]. now rewrite E, F.
Qed.
Lemma own_step lx st st' : own st -> step lx st st' -> own st'.
Proof. intros O (_ & _ & _ & _ & H & _). auto. Qed.
Lemma rest_skip st : rest (pskip st) = skip (rest st).
Proof. unfold pskip. destruct (ws_pos _ _ _ _). reflexivity. Qed.

(** What a located object's root and parts satisfy. *)
Definition leaf_at (st : pst) (d : ld) : Prop := kids d = [] /\ forall l, rloc d = Some l -> l = here st.
(* the first thing consumed is the layout before the object *)
Definition ends (st0 : pst) (lx : list lexeme) : Prop :=
  exists e w, lx = e ++ [Space w] /\ step [Space w] st0 (pskip st0).
Lemma ends_app st0 a lx : ends st0 lx -> ends st0 (a ++ lx).
Proof. intros (e & w & -> & S1). exists (a ++ e), w. rewrite app_assoc. auto. Qed.
Lemma ends_base st0 w : step [Space w] st0 (pskip st0) -> ends st0 [Space w].
Proof. intros S1. exists [], w. auto. Qed.
Definition PX (st0 : pst) (lx : list lexeme) (o : option ld) : Prop :=
  match o with
  | None => True
  | Some d => good lx st0 d \/
      (ends st0 lx /\ (forall l, rloc d = Some l -> l = here (pskip st0)) /\ Forall (good lx st0) (kids d))
  end.
Definition GX (st0 : pst) (lx : list lexeme) (o : option ld) : Prop :=
  match o with None => True | Some d => good lx st0 d end.
Notation oe := (option_map erase).

Lemma leaf_PX st0 lx d : ends st0 lx -> leaf_at (pskip st0) d -> PX st0 lx (Some d).
Proof. intros E [K R]. cbn. right. rewrite K. auto. Qed.

(* a result whose parts are good is good: it can be read again where its location points *)
Lemma full n st : own st -> Post st oe (PX st) (l_expr n st) (p_expr n (rest st)) -> Post st oe (GX st) (l_expr n st) (p_expr n (rest st)).
Proof.
  intros O H. destruct n as [|n]; [exact H|].
  destruct (l_expr (S n) st) as [a st'|e st'| | |]; destruct (p_expr (S n) (rest st)) as [[b r]| | | |] eqn:E; cbn in H |- *; try contradiction; auto.
  destruct H as (-> & -> & lx & S1 & P). split; auto. split; auto. exists lx. split; auto.
  destruct a as [d|]; cbn in P |- *; auto. destruct P as [P|(En & R & K)]; auto. apply good_kids; auto.
  intros l Rl. rewrite (R l Rl). split; [cbn; unfold pskip; destruct (ws_pos _ _ _ _); reflexivity|].
  destruct En as (e & w & -> & SS). destruct SS as (_ & Rs & _ & _ & _ & A & AL).
  exists [Space w], e, (skip (rest st)). rewrite rest_skip in Rs. split; [reflexivity|]. split; [exact Rs|]. split; [apply skip_idem|]. split.
  - split; [intros pre H C; apply A; auto|exact AL].
  - exists (S n), (rest st'). change (Some (erase d)) with (oe (Some d)). rewrite <- E. cbn [p_expr]. now rewrite skip_idem.
Qed.

(** * Tokens *)
Lemma digits_off_suffix : forall s, suffix s (digits_off s).
Proof.
  induction s as [|c r IH]; cbn; [apply suffix_refl|]. destruct (isdigit c); [now apply suffix_cons|apply suffix_refl].
Qed.
Lemma opt_off_suffix p s : suffix s (opt_off p s).
Proof. destruct s as [|c r]; cbn; [apply suffix_refl|]. destruct (p c); [apply suffix_cons|]; apply suffix_refl. Qed.
Lemma exponent_suffix s : suffix s (exponent_stop s).
Proof.
  unfold exponent_stop. cbv zeta.
  set (s1 := digits_off (opt_off (fun c => (c =? 43) || (c =? 45)) s)).
  assert (F1 : suffix s s1) by (eapply suffix_trans; [apply opt_off_suffix|apply digits_off_suffix]).
  set (s2 := if at0 s1 =? 46 then digits_off (opt_off (fun c => c =? 46) s1) else s1).
  assert (F2 : suffix s s2).
  { unfold s2. destruct (at0 s1 =? 46); auto. eapply suffix_trans; [exact F1|]. eapply suffix_trans; [apply opt_off_suffix|apply digits_off_suffix]. }
  eapply suffix_trans; [exact F2|]. eapply suffix_trans; apply opt_off_suffix.
Qed.
(* tokens do not contain newlines, except after the backslash of a character *)
Definition plainp (s r : list Z) : Prop := exists t, s = t ++ r /\ ~ In 10 t.
Lemma plainp_refl s : plainp s s. Proof. exists []. split; [reflexivity|intros []]. Qed.
Lemma plainp_cons c s r : c <> 10 -> plainp s r -> plainp (c :: s) r.
Proof. intros N (t & -> & H). exists (c :: t). split; [reflexivity|]. intros [E|E]; auto. Qed.
Lemma plainp_trans a b c : plainp a b -> plainp b c -> plainp a c.
Proof. intros (t & -> & H) (u & -> & K). exists (t ++ u). split; [now rewrite app_assoc|]. rewrite in_app_iff. tauto. Qed.
Lemma plainp_nl s r : plainp s r -> forall t, s = t ++ r -> nl_ok t.
Proof. intros (u & -> & H) t E. apply app_inv_tail in E. subst u. intros I. contradiction. Qed.
Lemma digit_n10 c : isdigit c = true -> c <> 10.
Proof. intros H ->. discriminate. Qed.
Lemma digits_off_plain : forall s, plainp s (digits_off s).
Proof.
  induction s as [|c r IH]; cbn; [apply plainp_refl|]. destruct (isdigit c) eqn:E; [|apply plainp_refl]. apply plainp_cons; auto. now apply digit_n10.
Qed.
Lemma opt_off_plain p s : p 10 = false -> plainp s (opt_off p s).
Proof.
  intros P. destruct s as [|c r]; cbn; [apply plainp_refl|]. destruct (p c) eqn:E; [|apply plainp_refl].
  apply plainp_cons; [intros ->; congruence|apply plainp_refl].
Qed.
Lemma exponent_plain s : plainp s (exponent_stop s).
Proof.
  unfold exponent_stop. cbv zeta.
  set (s1 := digits_off (opt_off (fun c => (c =? 43) || (c =? 45)) s)).
  assert (F1 : plainp s s1) by (eapply plainp_trans; [apply (opt_off_plain (fun c => (c =? 43) || (c =? 45))); reflexivity|apply digits_off_plain]).
  set (s2 := if at0 s1 =? 46 then digits_off (opt_off (fun c => c =? 46) s1) else s1).
  assert (F2 : plainp s s2).
  { unfold s2. destruct (at0 s1 =? 46); auto. eapply plainp_trans; [exact F1|]. eapply plainp_trans; [apply (opt_off_plain (fun c => c =? 46)); reflexivity|apply digits_off_plain]. }
  eapply plainp_trans; [exact F2|]. eapply plainp_trans; [apply (opt_off_plain (fun c => (c =? 101) || (c =? 69)))|apply (opt_off_plain (fun c => (c =? 43) || (c =? 45)))]; reflexivity.
Qed.
Lemma int_digits_plain : forall s acc v r, int_digits acc s = Ok (v, r) -> plainp s r.
Proof.
  induction s as [|c s IH]; intros acc v r; cbn [int_digits]; [intros [= <- <-]; apply plainp_refl|].
  destruct (isdigit c) eqn:E; [|intros [= <- <-]; apply plainp_refl]. destruct (i64 _); cbn; try discriminate. intros H.
  apply plainp_cons; [now apply digit_n10|eauto].
Qed.
Lemma frac_plain : forall s f d, plainp s (snd (frac_digits f d s)).
Proof.
  induction s as [|c s IH]; intros f d; cbn [frac_digits]; [apply plainp_refl|].
  destruct (isdigit c) eqn:E; [|apply plainp_refl]. apply plainp_cons; [now apply digit_n10|apply IH].
Qed.
Lemma adv_plain s r : adv s = Ok r -> at0 s <> 10 -> plainp s r.
Proof. destruct s as [|c q]; [discriminate|]. cbn. intros [= <-] N. apply plainp_cons; [auto|apply plainp_refl]. Qed.
Lemma p_unsigned_plain neg s d r : p_unsigned neg s = Ok (d, r) -> plainp s r.
Proof.
  unfold p_unsigned. destruct (int_digits 0 s) as [[ip s1]| | | |] eqn:E1; cbn [bind]; try discriminate.
  apply int_digits_plain in E1.
  match goal with |- bind ?m _ = _ -> _ => assert (H2 : forall isf fv s2, m = Ok (isf, fv, s2) -> plainp s1 s2) end.
  { intros isf fv s2. destruct (at0 s1 =? 46) eqn:E46; [|intros [= <- <- <-]; apply plainp_refl].
    destruct (adv s1) as [s'| | | |] eqn:Ea; cbn [bind]; try discriminate. pose proof (frac_plain s' dzero (d_of_Z 1)) as F.
    destruct (frac_digits dzero (d_of_Z 1) s') as [[fr dv] s'']. intros [= <- <- <-]. cbn in F.
    eapply plainp_trans; [eapply adv_plain; [exact Ea|]|exact F]. apply Z.eqb_eq in E46. rewrite E46. discriminate. }
  match goal with |- bind ?m _ = _ -> _ => destruct m as [[[isf fv] s2]| | | |] eqn:Em end; cbn [bind]; try discriminate.
  specialize (H2 _ _ _ eq_refl). clear Em.
  match goal with |- bind ?m _ = _ -> _ => assert (H3 : forall isf fv s3, m = Ok (isf, fv, s3) -> plainp s2 s3) end.
  { intros isf' fv' s3. destruct ((at0 s2 =? 101) || (at0 s2 =? 69)) eqn:Ee; [|intros [= <- <- <-]; apply plainp_refl].
    destruct (adv s2) as [s'| | | |] eqn:Ea; cbn [bind]; try discriminate.
    assert (P1 : plainp s2 s') by (eapply adv_plain; [exact Ea|]; intros X; rewrite X in Ee; discriminate).
    match goal with |- bind ?m _ = _ -> _ => assert (H4 : forall s4, m = Ok s4 -> plainp s' s4) end.
    { intros s4. destruct ((at0 s' =? 45) || (at0 s' =? 43)) eqn:Es; [|intros [= <-]; apply plainp_refl].
      intros Ea'. eapply adv_plain; [exact Ea'|]. intros X; rewrite X in Es; discriminate. }
    match goal with |- bind ?m _ = _ -> _ => destruct m as [s4| | | |] eqn:Em end; cbn [bind]; try discriminate.
    specialize (H4 _ eq_refl). destruct (negb (isdigit (at0 s4))); [discriminate|].
    destruct (int_digits 0 s4) as [[ex s5]| | | |] eqn:E5; cbn [bind]; try discriminate. apply int_digits_plain in E5.
    intros [= <- <- <-]. eapply plainp_trans; [exact P1|]. eapply plainp_trans; eauto. }
  match goal with |- bind ?m _ = _ -> _ => destruct m as [[[isf' fv'] s3]| | | |] eqn:Em end; cbn [bind]; try discriminate.
  specialize (H3 _ _ _ eq_refl). assert (P : plainp s s3) by (eapply plainp_trans; [exact E1|eapply plainp_trans; eauto]).
  destruct isf'; [intros [= <- <-]; exact P|]. destruct neg; [destruct (i64 _); cbn; try discriminate|]; cbn; intros [= <- <-]; exact P.
Qed.
Lemma p_number_plain s d r : p_number s = Ok (Some (d, r)) -> plainp s r.
Proof.
  unfold p_number.
  assert (H : forall neg q, plainp s q -> (do x <- p_unsigned neg q; Ok (Some x)) = Ok (Some (d, r)) -> plainp s r).
  { intros neg q P. destruct (p_unsigned neg q) as [[d' r']| | | |] eqn:E; cbn; try discriminate. intros [= <- <-]. eapply plainp_trans; [exact P|]. eapply p_unsigned_plain; eauto. }
  assert (HA : forall neg, at0 s <> 10 -> (do q <- adv s; do x <- p_unsigned neg q; Ok (Some x)) = Ok (Some (d, r)) -> plainp s r).
  { intros neg N. destruct (adv s) as [q| | | |] eqn:E; cbn [bind]; try discriminate. apply H. now apply adv_plain. }
  destruct (Z.eqb_spec (at0 s) 45) as [E45|_].
  { destruct (negb _); [discriminate|]. apply HA. rewrite E45. discriminate. }
  destruct (Z.eqb_spec (at0 s) 43) as [E43|_].
  { destruct (negb _); [discriminate|]. apply HA. rewrite E43. discriminate. }
  destruct (negb _); [discriminate|]. apply H, plainp_refl.
Qed.
Lemma symchar_n10 c : symchar c = true -> c <> 10.
Proof. intros H ->. vm_compute in H. discriminate. Qed.
Lemma sym_scan_plain : forall m s, (length s <= m)%nat -> plainp s (snd (sym_scan s)).
Proof.
  induction m as [|m IH]; intros [|c r] L; cbn [sym_scan]; try apply plainp_refl; cbn [length] in L; [lia|].
  destruct (c =? 0); [apply plainp_refl|].
  destruct (Z.eqb_spec c 92) as [->|N].
  - destruct r as [|c2 r2]; [apply plainp_cons; [discriminate|apply plainp_refl]|].
    destruct (esc_ok c2) eqn:E2.
    + assert (c2 <> 10) by (intros ->; discriminate). specialize (IH r2 ltac:(cbn in L; lia)). destruct (sym_scan r2). cbn in *.
      apply plainp_cons; [discriminate|]. now apply plainp_cons.
    + specialize (IH (c2 :: r2) ltac:(lia)). destruct (sym_scan (c2 :: r2)). cbn in *. apply plainp_cons; [discriminate|auto].
  - destruct (symchar c) eqn:E; [|apply plainp_refl]. specialize (IH r ltac:(lia)). destruct (sym_scan r). cbn in *. apply plainp_cons; auto. now apply symchar_n10.
Qed.
Lemma adv2_plain s r : adv2 s = Ok r -> at0 s <> 10 -> at1 s <> 10 -> plainp s r.
Proof.
  destruct s as [|c [|e q]]; try discriminate. cbn. intros [= <-] N M. apply plainp_cons; [auto|]. apply plainp_cons; [auto|apply plainp_refl].
Qed.
Lemma p_symbol_plain s d r : p_symbol s = Ok (Some (d, r)) -> plainp s r.
Proof.
  unfold p_symbol.
  destruct ((at0 s =? 35) && (at1 s =? 116) && tok_end (at2 s)) eqn:E1.
  { rewrite !andb_true_iff, !Z.eqb_eq in E1. destruct E1 as [[E0 E1] _]. destruct (adv2 s) eqn:Ea; cbn; try discriminate. intros [= <- <-]. eapply adv2_plain; [exact Ea|rewrite E0|rewrite E1]; discriminate. }
  destruct ((at0 s =? 35) && (at1 s =? 102) && tok_end (at2 s)) eqn:E2.
  { rewrite !andb_true_iff, !Z.eqb_eq in E2. destruct E2 as [[E0 E2] _]. destruct (adv2 s) eqn:Ea; cbn; try discriminate. intros [= <- <-]. eapply adv2_plain; [exact Ea|rewrite E0|rewrite E2]; discriminate. }
  pose proof (sym_scan_plain _ s (Nat.le_refl _)) as F. destruct (sym_scan s) as [[|x raw] k]; [discriminate|]. intros [= <- <-]. exact F.
Qed.
Lemma alpha_n10 c : isalpha c = true -> c <> 10.
Proof. intros H ->. discriminate. Qed.
Lemma alpha_plain : forall s, plainp s (snd (alpha_run s)).
Proof.
  induction s as [|c r IH]; cbn; [apply plainp_refl|]. destruct (isalpha c) eqn:E; [|apply plainp_refl].
  destruct (alpha_run r). cbn in *. apply plainp_cons; auto. now apply alpha_n10.
Qed.
Lemma p_char_nl s b r : at0 s = 35 -> at1 s = 92 -> p_char s = Ok (b, r) -> forall t, s = t ++ r -> nl_ok t.
Proof.
  destruct s as [|c [|e q]]; try discriminate. cbn. intros -> ->. unfold p_char. cbn [adv2 adv bind].
  assert (ONE : (do r' <- adv q; Ok (at0 q, r')) = Ok (b, r) -> forall t, 35 :: 92 :: q = t ++ r -> nl_ok t).
  { destruct q as [|x q]; [discriminate|]. cbn. intros [= _ <-] t E. change (35 :: 92 :: x :: q) with ([35; 92; x] ++ q) in E.
    apply app_inv_tail in E. subst t. intros [X|[X|[X|[]]]]; try discriminate. subst x. exists [35], []. reflexivity. }
  destruct (at0 q =? 0); [discriminate|]. destruct (isspace (at0 q)); [exact ONE|].
  destruct (isalpha (at0 q)); [|exact ONE]. pose proof (alpha_plain q) as A. destruct (alpha_run q) as [nm k]. cbn in A.
  assert (K : plainp (35 :: 92 :: q) k) by (apply plainp_cons; [discriminate|]; apply plainp_cons; [discriminate|exact A]).
  repeat match goal with |- (if ?c then _ else _) = _ -> _ => destruct c end; try exact ONE; intros [= _ <-]; now apply plainp_nl.
Qed.
Lemma okr_suffix {A} n b s (m : res A) (P : A -> Prop) a : okr n b s P m -> m = Ok a -> P a.
Proof. intros H ->. exact H. Qed.

Lemma post_number st st1 lx1 (P : list lexeme -> option ld -> Prop) (e : pst -> pr (option ld)) e' : own st -> step lx1 st st1 ->
  (forall d st2 lx2, leaf_at st1 d -> step lx2 st1 st2 -> P (lx2 ++ lx1) (Some d)) ->
  Post st oe P (e st1) e' ->
  Post st oe P (pdo x, k <- l_number st1; match x with Some d => POk (Some d) k | None => e k end)
    (do x <- p_number (rest st1); match x with Some (d, r) => Ok (Some d, r) | None => e' end).
Proof.
  intros O S1 HP He. unfold l_number. pose proof (p_number_ok 0 0 (rest st1)) as N.
  destruct (p_number (rest st1)) as [[[d r]|]| | | |] eqn:E; cbn [pbind bind]; auto; cbn [Post]; auto.
  - cbn in N. destruct (step_move r st1) as (t & Et & S2); [now apply consumed_suffix|apply plainp_nl; eapply p_number_plain; eauto|].
    cbn. split; auto. split; auto. exists ([Token t] ++ lx1). split; [eapply step_trans; eauto|].
    apply (HP _ (move r st1)); auto. split; [reflexivity|]. now intros l [= <-].
  - destruct (step_move (exponent_stop (rest st1)) st1) as (t & Et & S2); [apply exponent_suffix|apply plainp_nl, exponent_plain|].
    assert (S3 := step_trans _ _ _ _ _ S1 S2). unfold perr. rewrite (not_stale _ (own_step _ _ _ O S3)). cbn. eauto.
Qed.
Lemma post_symbol st st1 lx1 (P : list lexeme -> option ld -> Prop) (e : pst -> pr (option ld)) e' : own st -> step lx1 st st1 ->
  (forall d st2 lx2, leaf_at st1 d -> step lx2 st1 st2 -> P (lx2 ++ lx1) (Some d)) ->
  Post st oe P (e st1) e' ->
  Post st oe P (pdo x, k <- l_symbol st1; match x with Some d => POk (Some d) k | None => e k end)
    (do x <- p_symbol (rest st1); match x with Some (d, r) => Ok (Some d, r) | None => e' end).
Proof.
  intros O S1 HP He. unfold l_symbol. pose proof (p_symbol_ok 0 0 (rest st1)) as N.
  destruct (p_symbol (rest st1)) as [[[d r]|]| | | |] eqn:E; cbn [pbind bind]; auto; cbn [Post]; auto.
  - cbn in N. destruct (step_move r st1) as (t & Et & S2); [now apply consumed_suffix|apply plainp_nl; eapply p_symbol_plain; eauto|].
    assert (G : forall x, leaf_at st1 x -> erase x = d -> forall st3, step [Token t] st1 st3 -> rest st3 = r -> Post st oe P (POk (Some x) st3) (Ok (Some d, r))).
    { intros x Lx Ex st3 S3 R3. cbn. rewrite Ex, R3. split; auto. split; auto. exists ([Token t] ++ lx1). split; [eapply step_trans; eauto|]. eapply HP; eauto. }
    assert (GA : Post st oe P (POk (Some (LAtom d (here st1))) (move r st1)) (Ok (Some d, r))).
    { apply G; auto. split; [reflexivity|]. now intros l [= <-]. }
    destruct d; try exact GA. apply G; [split; [reflexivity|intros l [=]]|reflexivity| |reflexivity].
    change [Token t] with ([] ++ [Token t]). eapply step_trans; [exact S2|apply step_touch].
  - eexists. exact S1.
Qed.
Lemma post_char st st1 lx1 : own st -> step lx1 st st1 -> at0 (rest st1) = 35 -> at1 (rest st1) = 92 ->
  Post st (fun d => match erase d with RChar b => b | _ => 0 end) (fun lx d => leaf_at st1 d /\ exists b, erase d = RChar b) (l_char st1) (p_char (rest st1)).
Proof.
  intros O S1 N35 N92. assert (N : at1 (rest st1) <> 0) by (rewrite N92; discriminate). unfold l_char. pose proof (p_char_ok 0 0 (rest st1) N) as C.
  destruct (p_char (rest st1)) as [[b r]| | | |] eqn:E; cbn [Post]; auto.
  - cbn in C. destruct (step_move r st1) as (t & Et & S2); [now apply consumed_suffix|eapply p_char_nl; eauto|].
    cbn. split; auto. split; auto. exists ([Token t] ++ lx1). split; [eapply step_trans; eauto|]. split; [|eauto]. split; [reflexivity|]. now intros l [= <-].
  - destruct (at1_cons _ N) as (c & e & t & Er & _). unfold padv2. rewrite Er at 1. cbn [adv2 adv bind].
    destruct (step_move t st1) as (t' & E' & S').
    { exists [c; e]. exact Er. }
    { apply plainp_nl. rewrite Er in *. cbn in N35, N92. subst. apply plainp_cons; [discriminate|]. apply plainp_cons; [discriminate|apply plainp_refl]. }
    assert (S3 := step_trans _ _ _ _ _ S1 S'). unfold perr. rewrite (not_stale _ (own_step _ _ _ O S3)). cbn. eauto.
Qed.
Lemma str_scan_split : forall s e, s = fst (str_scan e s) ++ snd (str_scan e s).
Proof.
  induction s as [|c r IH]; intros e; cbn [str_scan]; [reflexivity|].
  destruct (c =? 0); [reflexivity|].
  destruct e; [|destruct (c =? 92); [|destruct (c =? 34)]]; try reflexivity;
  match goal with |- context [str_scan ?b r] => specialize (IH b); destruct (str_scan b r) end; cbn in *; congruence.
Qed.
Lemma post_string st st1 lx1 : own st -> step lx1 st st1 -> at0 (rest st1) = 34 ->
  Post st erase (fun lx d => leaf_at st1 d) (l_string st1) (p_string (rest st1)).
Proof.
  intros O S1 N. unfold l_string, p_string.
  assert (Sp : step lx1 st (push "string" st1)) by (change lx1 with ([] ++ lx1); eapply step_trans; [exact S1|now apply step_push, op_string]).
  assert (Er : rest (push "string" st1) = rest st1) by (unfold push; destruct (Nat.leb _ _); reflexivity).
  rewrite <- Er in N |- *. eapply post_adv; [exact Sp|rewrite N; discriminate|rewrite N; discriminate|].
  intros st2 t Et S2 _. pose proof (str_scan_split (rest st2) false) as SS.
  destruct (str_scan false (rest st2)) as [body k]. cbn [fst snd] in SS.
  set (st3 := at_pos (str_pos false body (ln st2) (cl st2)) body k st2).
  assert (S3 : step [Token body] st2 st3).
  { apply step_at; auto; [intros Nb; now rewrite str_pos_plain by auto|]. intros C. now apply str_lines0. }
  assert (S4 := step_trans _ _ _ _ _ (step_trans _ _ _ _ _ Sp S2) S3).
  assert (R3 : rest st3 = k) by reflexivity. clearbody st3.
  destruct (at0 k =? 34) eqn:Ek; cbn [negb].
  - rewrite <- R3. eapply post_adv; [exact S4| | |].
    + rewrite R3. eapply nz; eauto. discriminate.
    + rewrite R3. apply Z.eqb_eq in Ek. rewrite Ek. discriminate.
    + intros st4 t4 Et4 S5 _. cbn. split; auto. split; auto. eexists. split.
      * eapply step_trans; [eapply step_trans; [exact S4|exact S5]|]. eapply step_trans; apply step_pop.
      * split; [reflexivity|]. now intros l [= <-].
  - assert (S5 := step_trans _ _ _ _ _ S4 (step_pop st3)). eapply post_err; [|exact S5]. eapply own_step; eauto.
Qed.
Lemma brace_split : forall s d nm k, brace_scan d s = Some (nm, k) -> s = nm ++ k.
Proof.
  induction s as [|c r IH]; intros d nm k; cbn [brace_scan]; [discriminate|].
  destruct (c =? 0); [discriminate|].
  destruct (if c =? 123 then S d else if c =? 125 then pred d else d) as [|d'].
  - now intros [= <- <-].
  - destruct (brace_scan (S d') r) as [[nm' k']|] eqn:E; [|discriminate]. intros [= <- <-]. cbn. f_equal. eauto.
Qed.
Lemma brace_stop : forall s d nm k, brace_scan d s = Some (nm, k) -> d <> 0%nat -> at0 k <> 10.
Proof.
  induction s as [|c r IH]; intros d nm k; cbn [brace_scan]; [discriminate|].
  destruct (c =? 0); [discriminate|]. intros H Nd.
  destruct (Z.eqb_spec c 123) as [->|N1]; [|destruct (Z.eqb_spec c 125) as [->|N2]].
  - destruct (brace_scan (S d) r) as [[nm' k']|] eqn:E; [|discriminate]. injection H as <- <-. eapply IH; [exact E|discriminate].
  - destruct (pred d) as [|d'] eqn:Ed; [injection H as <- <-; discriminate|].
    destruct (brace_scan (S d') r) as [[nm' k']|] eqn:E; [|discriminate]. injection H as <- <-. eapply IH; [exact E|discriminate].
  - destruct d as [|d']; [congruence|].
    destruct (brace_scan (S d') r) as [[nm' k']|] eqn:E; [|discriminate]. injection H as <- <-. eapply IH; [exact E|discriminate].
Qed.
Lemma nul_split : forall s, s = to_nul s ++ from_nul s.
Proof. induction s as [|c r IH]; cbn; [reflexivity|]. destruct (c =? 0); cbn; congruence. Qed.
Lemma post_brace st st1 lx1 : own st -> step lx1 st st1 -> at0 (rest st1) = 35 -> at1 (rest st1) = 123 ->
  Post st erase (fun lx d => leaf_at st1 d) (l_brace st1) (p_brace (rest st1)).
Proof.
  intros O S1 N35 N. unfold l_brace, p_brace. eapply post_adv2; [exact S1|rewrite N; discriminate|rewrite N35; discriminate|rewrite N; discriminate|].
  intros st2 t Et S2 _. destruct (brace_scan 1 (rest st2)) as [[nm k]|] eqn:E.
  - set (st3 := at_pos (brace_pos nm (ln st2) (cl st2)) nm k st2).
    assert (S3 : step [Token nm] st2 st3).
    { apply step_at; [eapply brace_split; eauto|intros Nb; now rewrite brace_pos_plain by auto|]. intros _. apply brace_lines0. }
    assert (S4 := step_trans _ _ _ _ _ (step_trans _ _ _ _ _ S1 S2) S3).
    assert (R3 : rest st3 = k) by reflexivity. clearbody st3. rewrite <- R3.
    eapply post_adv; [exact S4| | |].
    + rewrite R3. now destruct (brace_suffix _ _ _ _ E).
    + rewrite R3. now apply (brace_stop _ _ _ _ E).
    + intros st4 t4 Et4 S5 _. assert (S6 := step_trans _ _ _ _ _ S4 S5).
      destruct (at0 (rest st4) =? 35) eqn:E4; cbn [negb].
      * eapply post_adv; [exact S6| | |].
        -- eapply nz; eauto. discriminate.
        -- apply Z.eqb_eq in E4. rewrite E4. discriminate.
        -- intros st5 t5 Et5 S7 _. cbn. split; auto. split; auto. eexists. split; [eapply step_trans; [exact S6|exact S7]|].
           split; [reflexivity|]. now intros l [= <-].
      * eapply post_err; [|exact S6]. eapply own_step; eauto.
  - set (body := to_nul (rest st2)). set (st3 := at_pos (brace_pos body (ln st2) (cl st2)) body (from_nul (rest st2)) st2).
    assert (S3 : step [Token body] st2 st3).
    { apply step_at; [apply nul_split|intros Nb; now rewrite brace_pos_plain by auto|]. intros _. apply brace_lines0. }
    assert (S4 := step_trans _ _ _ _ _ (step_trans _ _ _ _ _ S1 S2) S3).
    eapply post_err; [|exact S4]. eapply own_step; eauto.
Qed.
