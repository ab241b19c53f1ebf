From Coq Require Import Lia String.
From Verif Require Import Base NumModel HeapModel StringModel ParseModel ParseSpec ParseProofs LocModel LocSpec.
Local Open Scope list_scope.
Local Open Scope Z_scope.

(** * Positions *)
Lemma count_app l1 l2 : count_occ Z.eq_dec (l1 ++ l2) 10%Z = (count_occ Z.eq_dec l1 10%Z + count_occ Z.eq_dec l2 10%Z)%nat.
Proof. apply count_occ_app. Qed.
Lemma at_nil : at_loc [] 1 1.
Proof. split; [reflexivity|]. exists [], []. repeat split; auto. Qed.
Lemma at_plain pre l c t : at_loc pre l c -> ~ In 10 t -> at_loc (pre ++ t) l (c + Z.of_nat (length t)).
Proof.
  intros (L & a & b & -> & N & E & ->) Nt. split.
  - rewrite count_app. rewrite (proj1 (count_occ_not_In Z.eq_dec t 10) Nt). rewrite L. f_equal. f_equal. lia.
  - exists a, (b ++ t). rewrite app_assoc. repeat split; auto.
    + rewrite in_app_iff. tauto.
    + rewrite app_length. lia.
Qed.
Lemma at_newline pre l c : at_loc pre l c -> at_loc (pre ++ [10]) (l + 1) 1.
Proof.
  intros (L & _). split.
  - rewrite count_app, L. change (count_occ Z.eq_dec [10] 10) with 1%nat. lia.
  - exists (pre ++ [10]), []. rewrite app_nil_r. repeat split; auto. right. now exists pre.
Qed.
Lemma at_one pre l c x : at_loc pre l c -> x <> 10 -> at_loc (pre ++ [x]) l (c + 1).
Proof. intros H N. apply (at_plain pre l c [x] H). cbn. intros [E|[]]; auto. Qed.

Lemma firstn_suffix (pre r : list Z) : firstn (length (pre ++ r) - length r) (pre ++ r) = pre.
Proof.
  rewrite app_length. replace (length pre + length r - length r)%nat with (length pre) by lia.
  rewrite firstn_app, Nat.sub_diag, firstn_all. cbn. now rewrite app_nil_r.
Qed.

Lemma firstn_suffix' (s t r : list Z) : s = t ++ r -> firstn (length s - length r) s = t.
Proof. intros ->. apply firstn_suffix. Qed.

Lemma ws_ok : forall s b pre l c, at_loc pre l c ->
  exists t, s = t ++ skip_ws b s /\ at_loc (pre ++ t) (fst (ws_pos b s l c)) (snd (ws_pos b s l c)).
Proof.
  assert (STOP : forall (s : list Z) pre l c, at_loc pre l c -> exists t, s = t ++ s /\ at_loc (pre ++ t) (fst (l, c)) (snd (l, c))).
  { intros s pre l c H. exists []. split; [reflexivity|]. now rewrite app_nil_r. }
  induction s as [|x r IH]; intros b pre l c H; cbn [skip_ws ws_pos]; [now apply STOP|].
  assert (STEP : forall b l' c', at_loc (pre ++ [x]) l' c' -> exists t, x :: r = t ++ skip_ws b r /\ at_loc (pre ++ t) (fst (ws_pos b r l' c')) (snd (ws_pos b r l' c'))).
  { intros b' l' c' H'. destruct (IH b' _ _ _ H') as (t & E & A). exists (x :: t). split; [cbn; now rewrite <- E|].
    rewrite <- app_assoc in A. exact A. }
  destruct b.
  - destruct (x =? 0); [now apply STOP|]. destruct (Z.eqb_spec x 10) as [->|N].
    + apply STEP. now apply at_newline in H.
    + apply STEP. now apply at_one.
  - destruct (isspace x).
    + destruct (Z.eqb_spec x 10) as [->|N]; apply STEP; [now apply at_newline in H|now apply at_one].
    + destruct (Z.eqb_spec x 59) as [->|N]; [|now apply STOP]. apply STEP. apply at_one; auto. discriminate.
Qed.

Lemma str_pos_plain : forall body esc l c, ~ In 10 body -> str_pos esc body l c = (l, c + Z.of_nat (length body)).
Proof.
  induction body as [|x r IH]; intros esc l c N; cbn [str_pos]; [f_equal; cbn; lia|].
  assert (Nr : ~ In 10 r) by (intros X; apply N; now right).
  assert (x <> 10) by (intros ->; apply N; now left).
  rewrite (proj2 (Z.eqb_neq x 10)) by auto.
  destruct esc; [|destruct (x =? 92)]; rewrite IH by auto; f_equal; cbn [length]; lia.
Qed.
Lemma brace_pos_plain : forall body l c, ~ In 10 body -> brace_pos body l c = (l, c + Z.of_nat (length body)).
Proof.
  induction body as [|x r IH]; intros l c N; cbn [brace_pos]; [f_equal; cbn; lia|].
  assert (Nr : ~ In 10 r) by (intros X; apply N; now right).
  assert (x <> 10) by (intros ->; apply N; now left).
  rewrite (proj2 (Z.eqb_neq x 10)) by auto. rewrite IH by auto. f_equal. cbn [length]. lia.
Qed.

Lemma brace_lines0 : forall body l c, fst (brace_pos body l c) = l + Z.of_nat (count_occ Z.eq_dec body 10).
Proof.
  induction body as [|x r IH]; intros l c; cbn [brace_pos count_occ]; [cbn; lia|].
  destruct (Z.eqb_spec x 10) as [->|N]; rewrite IH.
  - destruct (Z.eq_dec 10 10); [lia|congruence].
  - destruct (Z.eq_dec x 10); [congruence|lia].
Qed.
Lemma str_lines0 : forall body l c, (forall a b, body <> a ++ 92 :: 10 :: b) -> fst (str_pos false body l c) = l + Z.of_nat (count_occ Z.eq_dec body 10).
Proof.
  intros body. remember (length body) as m eqn:Hm. assert (Lm : (length body <= m)%nat) by lia. clear Hm.
  revert body Lm. induction m as [|m IH]; intros [|x r] Lm l c H; cbn [length] in Lm; cbn [str_pos count_occ]; try (cbn; lia).
  assert (Hr : forall a b, r <> a ++ 92 :: 10 :: b) by (intros a b ->; now apply (H (x :: a) b)).
  destruct (Z.eqb_spec x 92) as [->|N92].
  - destruct r as [|y q]; [cbn; lia|]. cbn [str_pos]. assert (y <> 10) by (intros ->; now apply (H [] q)).
    rewrite IH; [|cbn in Lm; lia|intros a b ->; now apply (Hr (y :: a) b)].
    cbn [count_occ]. destruct (Z.eq_dec 92 10); [discriminate|]. destruct (Z.eq_dec y 10); [congruence|lia].
  - destruct (Z.eqb_spec x 10) as [->|N10]; (rewrite IH; [|lia|auto]).
    + destruct (Z.eq_dec 10 10); [lia|congruence].
    + destruct (Z.eq_dec x 10); [congruence|lia].
Qed.

(** * Going from one state to a later one *)
Definition nls (t : list Z) : Z := Z.of_nat (count_occ Z.eq_dec t 10).
Lemma nls_app a b : nls (a ++ b) = nls a + nls b.
Proof. unfold nls. rewrite count_app. lia. Qed.
Lemma nls_none t : ~ In 10 t -> nls t = 0.
Proof. intros N. unfold nls. now rewrite (proj1 (count_occ_not_In Z.eq_dec t 10) N). Qed.
Lemma nls_cons c t : nls (c :: t) = (if c =? 10 then 1 else 0) + nls t.
Proof. change (c :: t) with ([c] ++ t). rewrite nls_app. f_equal. unfold nls. cbn. destruct (Z.eq_dec c 10) as [->|N]; [reflexivity|]. now rewrite (proj2 (Z.eqb_neq c 10)). Qed.
(* newlines inside a token come after a backslash *)
Definition nl_ok (t : list Z) : Prop := In 10 t -> exists a b, t = a ++ 92 :: 10 :: b.
Lemma nl_ok_line t : nl_ok t -> line_calm (Token t) -> nls t = 0.
Proof.
  intros N C. apply nls_none. intros I. destruct (N I) as (a & b & E). exact (C a b E).
Qed.
Definition step (lx : list lexeme) (st st' : pst) : Prop :=
  lex st' = lx ++ lex st /\ rest st = flat lx ++ rest st' /\
  tid st' = tid st /\ fname st' = fname st /\ (own st -> own st') /\
  (forall pre, at_loc pre (ln st) (cl st) -> Forall calm lx -> at_loc (pre ++ flat lx) (ln st') (cl st')) /\
  (Forall line_calm lx -> ln st' = ln st + nls (flat lx)).
Ltac spl := unfold step; split; [|split; [|split; [|split; [|split; [|split]]]]].
Lemma flat_app a b : flat (a ++ b) = flat b ++ flat a.
Proof. induction a; cbn; [now rewrite app_nil_r|]. now rewrite IHa, app_assoc. Qed.
Lemma step_refl st : step [] st st.
Proof. spl; auto; intros; cbn; [now rewrite app_nil_r|lia]. Qed.
Lemma step_trans a b st1 st2 st3 : step a st1 st2 -> step b st2 st3 -> step (b ++ a) st1 st3.
Proof.
  intros (L1 & R1 & T1 & F1 & O1 & A1 & N1) (L2 & R2 & T2 & F2 & O2 & A2 & N2). spl.
  - rewrite L2, L1. now rewrite app_assoc.
  - rewrite R1, R2, flat_app, app_assoc. reflexivity.
  - congruence.
  - congruence.
  - auto.
  - intros pre H C. apply Forall_app in C. destruct C as [Cb Ca]. rewrite flat_app, app_assoc. apply A2; auto.
  - intros C. apply Forall_app in C. destruct C as [Cb Ca]. rewrite flat_app, nls_app, N2, N1 by auto. lia.
Qed.
Lemma op_quote s : at0 s = 39 -> opens "quote" s. Proof. unfold opens. tauto. Qed.
Lemma op_quasi s : at0 s = 96 -> opens "quasiquote" s. Proof. unfold opens. tauto. Qed.
Lemma op_list s : at0 s = 40 -> opens "list" s. Proof. unfold opens. tauto. Qed.
Lemma op_string s : at0 s = 34 -> opens "string" s. Proof. unfold opens. tauto. Qed.
Lemma op_vector s : at0 s = 35 -> at1 s = 40 -> opens "vector" s. Proof. unfold opens. tauto. Qed.
Lemma own_ext lx st st' : stk st' = stk st -> tid st' = tid st -> lex st' = lx ++ lex st -> rest st = flat lx ++ rest st' ->
  (forall pre, at_loc pre (ln st) (cl st) -> Forall calm lx -> at_loc (pre ++ flat lx) (ln st') (cl st')) -> own st -> own st'.
Proof.
  intros K T L R A [P F]. split.
  - rewrite L. intros C. apply Forall_app in C. destruct C. rewrite flat_app. auto.
  - rewrite K. revert F. apply Forall_impl. intros f (Tf & b & l & Lf & N & Op & Af). split; [congruence|].
    assert (E : flat l ++ rest st = flat (lx ++ l) ++ rest st') by (rewrite R, flat_app; now rewrite app_assoc).
    exists b, (lx ++ l). rewrite <- E. split; [rewrite L, Lf; now rewrite app_assoc|]. auto.
Qed.
Lemma step_mk lx st st' : lex st' = lx ++ lex st -> rest st = flat lx ++ rest st' -> tid st' = tid st -> fname st' = fname st -> stk st' = stk st ->
  (forall pre, at_loc pre (ln st) (cl st) -> Forall calm lx -> at_loc (pre ++ flat lx) (ln st') (cl st')) ->
  (Forall line_calm lx -> ln st' = ln st + nls (flat lx)) -> step lx st st'.
Proof. intros L R T F K A N. spl; auto. now apply (own_ext lx). Qed.
(* a state that differs only in the stack and the constants *)
Lemma step_same st st' : rest st' = rest st -> ln st' = ln st -> cl st' = cl st -> lex st' = lex st -> tid st' = tid st -> fname st' = fname st ->
  (own st -> own st') -> step [] st st'.
Proof.
  intros R L C X T F O. spl; auto; [intros pre H _; cbn; rewrite app_nil_r, L, C; exact H|intros _; cbn; lia].
Qed.
Lemma step_push k st : opens k (rest st) -> step [] st (push k st).
Proof.
  intros Op. unfold push. destruct (Nat.leb 50 _); [apply step_refl|]. apply step_same; cbn; auto.
  intros [P F]. split; [exact P|]. cbn. constructor; [|exact F]. split; [reflexivity|]. exists (lex st), []. cbn. auto.
Qed.
Lemma own_tl st : own st -> own (pop st).
Proof. intros [P F]. split; [exact P|]. cbn. destruct (stk st); cbn; [constructor|]. now inversion F. Qed.
Lemma step_pop st : step [] st (pop st).
Proof. apply step_same; cbn; auto. apply own_tl. Qed.
Lemma step_clear st : step [] st (clear_stack st).
Proof. apply step_same; cbn; auto. intros [P _]. split; [exact P|constructor]. Qed.
Lemma step_touch d l st : step [] st (touch d l st).
Proof. apply step_same; cbn; auto. Qed.
Lemma step_move r st : suffix (rest st) r -> (forall t, rest st = t ++ r -> nl_ok t) ->
  exists t, rest st = t ++ r /\ step [Token t] st (move r st).
Proof.
  intros (t & E) NL. exists t. split; auto. specialize (NL t E).
  assert (K : firstn (length (rest st) - length r) (rest st) = t) by (rewrite E; apply firstn_suffix).
  assert (Kn : (length (rest st) - length r)%nat = length t) by (rewrite E, app_length; lia).
  unfold move. cbv zeta. rewrite K, Kn.
  apply step_mk; cbn; auto.
  - intros pre H C. inversion C as [|? ? Cc]; subst. cbn in Cc. apply at_plain; tauto.
  - intros C. apply Forall_inv in C. rewrite (nl_ok_line t) by auto. lia.
Qed.
Lemma ws_lines : forall s b l c t, s = t ++ skip_ws b s -> fst (ws_pos b s l c) = l + nls t.
Proof.
  assert (STOP : forall (s t : list Z) l, s = t ++ s -> l = l + nls t).
  { intros s t l E. destruct t as [|y t]; [cbn; lia|]. apply (f_equal (@length Z)) in E. rewrite app_length in E. cbn in E. lia. }
  induction s as [|x r IH]; intros b l c t E; cbn [skip_ws ws_pos] in *; [now apply (STOP [])|].
  assert (STEP : forall b l' c', x :: r = t ++ skip_ws b r -> l' = l + (if x =? 10 then 1 else 0) -> fst (ws_pos b r l' c') = l + nls t).
  { intros b' l' c' E' L'. destruct t as [|y t].
    { apply (f_equal (@length Z)) in E'. pose proof (suffix_len _ _ (skip_ws_suffix r b')). cbn in E'. lia. }
    cbn in E'. injection E' as <- E'. rewrite (IH b' l' c' t E'), nls_cons. lia. }
  destruct b.
  - destruct (x =? 0); [now apply (STOP (x :: r))|]. destruct (Z.eqb_spec x 10) as [->|N]; apply STEP; auto. lia.
  - destruct (isspace x).
    + destruct (Z.eqb_spec x 10) as [->|N]; apply STEP; auto. lia.
    + destruct (Z.eqb_spec x 59) as [->|N]; [|now apply (STOP (x :: r))]. apply STEP; auto. cbn. lia.
Qed.
Lemma step_skip st : exists t, step [Space t] st (pskip st).
Proof.
  assert (S0 : suffix (rest st) (skip (rest st))) by apply skip_ws_suffix.
  destruct S0 as (t & E). exists t. unfold pskip.
  destruct (ws_pos false (rest st) (ln st) (cl st)) as [l c] eqn:W.
  assert (K : firstn (length (rest st) - length (skip (rest st))) (rest st) = t) by (now apply firstn_suffix').
  cbv zeta. rewrite K.
  apply step_mk; cbn; auto.
  2: { intros _. pose proof (ws_lines (rest st) false (ln st) (cl st) t E) as WL. rewrite W in WL. exact WL. }
  intros pre H _. destruct (ws_ok (rest st) false pre _ _ H) as (t' & E' & A).
  rewrite W in A. cbn in A. assert (t' = t) as -> by (rewrite E in E' at 1; now apply app_inv_tail in E').
  exact A.
Qed.
Lemma step_at lc tok r st : rest st = tok ++ r -> (~ In 10 tok -> lc = (ln st, cl st + Z.of_nat (length tok))) ->
  (line_calm (Token tok) -> fst lc = ln st + nls tok) ->
  step [Token tok] st (at_pos lc tok r st).
Proof.
  intros E P L. apply step_mk; cbn; auto.
  - intros pre H C. inversion C as [|? ? Cc]; subst. cbn in Cc. rewrite P by tauto. apply at_plain; tauto.
  - intros C. apply Forall_inv in C. auto.
Qed.
Lemma not_stale st : own st -> stale st = false.
Proof.
  intros O. unfold stale. destruct (existsb _ _) eqn:E; auto. apply existsb_exists in E. destruct E as (f & I & N).
  assert (H : In f (stk st)) by (rewrite <- (firstn_skipn 20 (stk st)); apply in_or_app; now left).
  destruct O as [_ O]. rewrite Forall_forall in O. rewrite (proj1 (O _ H)) in N. rewrite Nat.eqb_refl in N. discriminate.
Qed.

(** * Where an object's location points *)
Definition place (lx : list lexeme) (st : pst) (x : ld) (l : loc) : Prop :=
  fst (fst l) = fname st /\
  exists lm lr after, lx = lr ++ lm /\ rest st = flat lm ++ after /\ skip after = after /\
    ((forall pre, at_loc pre (ln st) (cl st) -> Forall calm lm -> at_loc (pre ++ flat lm) (snd (fst l)) (snd l)) /\
     (Forall line_calm lm -> snd (fst l) = ln st + nls (flat lm))) /\
    exists n r, p_expr n after = Ok (Some (erase x), r).
Definition good (lx : list lexeme) (st : pst) (d : ld) : Prop :=
  forall x l, sub x d -> rloc x = Some l -> place lx st x l.
Lemma place_later lx lx' st st1 x l : step lx st st1 -> place lx' st1 x l -> place (lx' ++ lx) st x l.
Proof.
  intros (L1 & R1 & T1 & F1 & O1 & A1 & N1) (F & lm & lr & after & E0 & E & Sk & A & P). split; [congruence|].
  exists (lm ++ lx), lr, after. split; [rewrite E0; now rewrite app_assoc|]. rewrite flat_app.
  split; [rewrite R1, E; now rewrite app_assoc|]. split; auto. split; auto. destruct A as [A AL]. split.
  - intros pre H C. apply Forall_app in C. destruct C. rewrite app_assoc. apply A; auto.
  - intros C. apply Forall_app in C. destruct C. rewrite nls_app, AL, N1 by auto. lia.
Qed.
Lemma good_later lx lx' st st1 d : step lx st st1 -> good lx' st1 d -> good (lx' ++ lx) st d.
Proof. intros S1 G x l X R. eapply place_later; eauto. Qed.
Lemma good_more_l lx lx' st d : good lx st d -> good (lx' ++ lx) st d.
Proof.
  intros G x l X R. destruct (G x l X R) as (F & lm & lr & after & E0 & E & Sk & A & P). split; auto.
  exists lm, (lx' ++ lr), after. split; [rewrite E0; now rewrite app_assoc|]. split; [exact E|]. split; [exact Sk|]. split; [exact A|exact P].
Qed.
Lemma good_kids lx st d : (forall l, rloc d = Some l -> place lx st d l) -> Forall (good lx st) (kids d) -> good lx st d.
Proof.
  intros R K x l X. inversion X; subst; auto. rewrite Forall_forall in K. intros Rx. now apply (K _ H x l).
Qed.

(** * Results *)
Section Post.
Context {A B : Type}.
Definition Post (st : pst) (f : A -> B) (P : list lexeme -> A -> Prop) (m : pr A) (r : res (B * list Z)) : Prop :=
  match m, r with
  | POk a st', Ok (b, r') => b = f a /\ r' = rest st' /\ exists lx, step lx st st' /\ P lx a
  | PErr _ st', Err => exists lx, step lx st st'
  | PAbort, Abort => True
  | PUB, UB => True
  | PFuel, Fuel => True
  | _, _ => False
  end.
End Post.
Definition more (lx lx' : list lexeme) : Prop := forall x, In x lx -> In x lx'.
Lemma post_err {A B} st (f : A -> B) P msg st' lx : own st' -> step lx st st' -> Post st f P (perr msg st') Err.
Proof. intros O S1. unfold perr. rewrite (not_stale _ O). cbn. eauto. Qed.
Lemma post_bind {A B C D} (st st1 : pst) lx1 (f1 : A -> B) P1 m r1 (f : C -> D) P k k' :
  step lx1 st st1 -> Post st1 f1 P1 m r1 ->
  (forall a st2 lx2, step lx2 st1 st2 -> P1 lx2 a -> Post st f P (k a st2) (k' (f1 a, rest st2))) ->
  Post st f P (pbind m k) (bind r1 k').
Proof.
  intros S1 H K. destruct m as [a st2|e st2| | |], r1 as [[b r]| | | |]; cbn in H; try contradiction; cbn; auto.
  - destruct H as (-> & -> & lx2 & S2 & Pa). eapply K; eauto.
  - destruct H as (lx2 & S2). exists (lx2 ++ lx1). eapply step_trans; eauto.
Qed.
Lemma post_adv {C D} (st st1 : pst) lx1 (f : C -> D) P k k' :
  step lx1 st st1 -> at0 (rest st1) <> 0 -> at0 (rest st1) <> 10 ->
  (forall st2 t, rest st1 = t ++ rest st2 -> step [Token t] st1 st2 -> stk st2 = stk st1 -> Post st f P (k st2) (k' (rest st2))) ->
  Post st f P (padv st1 k) (bind (adv (rest st1)) k').
Proof.
  intros S1 N N10 K. destruct (at0_cons _ N) as (c & t & E & Ec). unfold padv. rewrite E at 1. cbn [adv].
  rewrite E at 1. cbn [adv bind].
  destruct (step_move t st1) as (t' & E' & S').
  { exists [c]. exact E. }
  { intros t' E'. rewrite E in E'. change (c :: t) with ([c] ++ t) in E'. apply app_inv_tail in E'. subst t'.
    intros [X|[]]. subst c. congruence. }
  specialize (K (move t st1) t'). cbn [rest move] in K. apply K; auto.
Qed.
Lemma post_adv2 {C D} (st st1 : pst) lx1 (f : C -> D) P k k' :
  step lx1 st st1 -> at1 (rest st1) <> 0 -> at0 (rest st1) <> 10 -> at1 (rest st1) <> 10 ->
  (forall st2 t, rest st1 = t ++ rest st2 -> step [Token t] st1 st2 -> stk st2 = stk st1 -> Post st f P (k st2) (k' (rest st2))) ->
  Post st f P (padv2 st1 k) (bind (adv2 (rest st1)) k').
Proof.
  intros S1 N N10 N11 K. destruct (at1_cons _ N) as (c & e & t & E & Ec). unfold padv2. rewrite E at 1. cbn [adv2 adv bind].
  rewrite E at 1. cbn [adv2 adv bind].
  destruct (step_move t st1) as (t' & E' & S').
  { exists [c; e]. exact E. }
  { intros t' E'. rewrite E in E'. change (c :: e :: t) with ([c; e] ++ t) in E'. apply app_inv_tail in E'. subst t'.
    rewrite E in N10. cbn in N10. intros [X|[X|[]]]; congruence. }
  specialize (K (move t st1) t'). cbn [rest move] in K. apply K; auto.
Qed.
