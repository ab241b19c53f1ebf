(** Every step keeps the invariant of memory. *)
From Coq Require Import String List ZArith Bool Lia.
From Verif Require Import MachModel MachSpec MachProofs MachProofs2 MachProofs3 MachProofs4.
Import ListNotations.
Local Open Scope string_scope.
Local Open Scope list_scope.
Local Open Scope nat_scope.

Lemma good_more W s s1 s' : good W s s1 -> m_sto s' = m_sto s1 -> m_ctrl s' = m_ctrl s1 -> m_stack s' = m_stack s1 ->
  (forall W', ext W W' -> inv W' s1 -> (forall j k w, nth_error (m_conts s') j = Some (k, w) -> Forall (fok W') k) /\
     Forall (fun x => vok W' (fst (fst x)) /\ vok W' (snd (fst x))) (m_guards s')) -> good W s s'.
Proof.
  intros (W' & X & I1 & (Q & R)) A B C D. exists W'. split; auto. destruct (D W' X I1) as (D1 & D2). split.
  - destruct I1 as [i1 i2 i3 i4 i5 i6 i7 i8 i9]. constructor; rewrite ?A, ?B, ?C; auto.
  - split; rewrite A; auto.
Qed.
Lemma inv_build W W' s c k h' : inv W s -> ext W W' -> sok W' h' -> cok W' c -> Forall (fok W') k ->
  (exists cs es cs' es', own_c h' c cs es /\ own_k h' k cs' es' /\ oc W' = cs ++ cs' /\ oe W' = es ++ es') ->
  NoDup (oc W') /\ NoDup (oe W') -> (forall a, In a (oc W') -> a < wn W') /\ (forall e, In e (oe W') -> e < en W') -> inv W' (goh s c k h').
Proof.
  intros [i1 i2 i3 i4 i5 i6 i7 i8 i9] X S' C K O D L. constructor; cbn [m_sto m_ctrl m_stack m_conts m_guards goh]; auto.
  - intros j k1 w1 Z. eapply foks_ext; eauto.
  - eapply Forall_impl; [|exact i5]. intros x (Y & Z). split; eapply vok_ext; eauto.
  - now apply X.
Qed.
Lemma go_goh s c k : go s c k = goh s c k (m_sto s).
Proof. reflexivity. Qed.
Lemma stack_tail W s f k : inv W s -> m_stack s = f :: k -> fok W f /\ Forall (fok W) k.
Proof. intros H E. pose proof (i_stack W s H) as K. rewrite E in K. now inversion K. Qed.
Lemma quiet_kept W s s' : cells_kept (aok W) (m_sto s) (m_sto s') -> (forall e x, eok W e -> binding (m_sto s') e x = binding (m_sto s) e x) -> quiet W s s'.
Proof. intros A B. split; auto. Qed.

(** ** calls *)
Lemma apply_good W s ce ps r b pe args p k s' : inv W s -> m_stack s = p ++ k -> (forall f, In f p -> building f = false) -> plain_c (m_ctrl s) = true ->
  eok W ce -> eok W pe -> apply_step s ce ps r b pe args k = Next s' -> good W s s'.
Proof.
  intros H E B P Ec Ep. unfold apply_step. cbn [alloc_env].
  destruct (sok_envo W (m_sto s) (Some pe) (i_sto W s H) Ep) as (K & Fe).
  assert (G : forall c, cok (Wenvo W) c -> own_c (snd (alloc_env (Some pe) (m_sto s))) c [] [en W] -> good W s (goh s c k (snd (alloc_env (Some pe) (m_sto s))))).
  { intros c C O. exists (Wenvo W). split; [apply ext_envo|]. destruct H as [i1 i2 i3 i4 i5 i6 i7 (i8 & i8') (i9 & i9')]. split.
    - apply (inv_build W); auto using ext_envo.
      + constructor; auto.
      + rewrite E in i3. apply Forall_app in i3. eapply foks_ext; [apply ext_envo|]. tauto.
      + destruct i7 as (cs & es & cs' & es' & O1 & O2 & R1 & R2). apply plain_own_inv in O1; auto. destruct O1 as (-> & ->). cbn in R1, R2.
        rewrite E in O2. destruct (own_split _ _ _ _ _ O2) as (c1 & e1 & c2 & e2 & -> & -> & O3 & O4). apply own_plain in O3; auto. destruct O3 as (-> & ->).
        exists [], [en W], c2, e2. split; auto. split.
        * eapply own_k_kept; [|exact O4]. intros a _. reflexivity.
        * cbn in R1, R2 |- *. rewrite R1, R2. auto.
      + cbn. split; auto. constructor; auto. intro Z. apply i9' in Z. lia.
      + cbn. split; auto. intros e [<-|Z]; [lia|]. apply i9' in Z. lia.
    - apply quiet_kept; cbn [m_sto goh].
      + intros a _. reflexivity.
      + intros e x (L & _). apply env_binding. rewrite <- (s_e W _ i1). exact L. }
  cbn in Fe. unfold alloc_env in G. cbn [snd] in G. rewrite Fe in *.
  assert (C : eok (Wenvo W) ce) by now apply ext_envo.
  destruct ps as [|q ps].
  - destruct r as [y|]; intros [= <-]; apply G; cbn; auto. split; [|reflexivity]. split; [discriminate|]. split; [discriminate|]. intros a [].
  - intros [= <-]. apply G; cbn; auto.
Qed.
Lemma dynthrow_good W s j v p k s' : inv W s -> m_stack s = p ++ k -> (forall f, In f p -> building f = false) -> plain_c (m_ctrl s) = true ->
  vok W v -> dynthrow s j v k = Next s' -> good W s s'.
Proof.
  intros H E B P V. unfold dynthrow. destruct (nth_error (m_conts s) j) as [[k1 w]|]; [|discriminate]. intros [= <-].
  apply (good_plain W s (CDynOut j v (common_prefix (m_wind s) w) (rev (until_common (common_prefix (m_wind s) w) (m_wind s)))) p k H E P eq_refl V []); auto. intros f [].
Qed.
Lemma vals_good W s f vs ex s' : inv W s -> plain_c (m_ctrl s) = true -> vok W f -> Forall (vok W) vs -> vals_step s f vs ex (m_stack s) = Next s' -> good W s s'.
Proof.
  intros H P Vf Vs. unfold vals_step, errork. destruct f as [a|a|ps r b pe|p|j]; try (intros [= <-]; apply good_keep; auto; cbn; auto; fail).
  - pose proof (i_sto W s H) as K0. destruct (sok_env W (m_sto s) (Some pe) K0 Vf) as (K & Fe).
    destruct (alloc_env (Some pe) (m_sto s)) as (fe, h1) eqn:A. cbn [fst snd] in K, Fe. subst fe.
    destruct (bind_values (en W) ps r vs ex h1) as [h'|] eqn:BV; [|intros [= <-]; apply good_keep; auto; cbn; auto].
    intros [= <-]. assert (L : forall a, In a (oc (Wenv W)) -> a < wn (Wenv W)) by apply (i_in W s H).
    destruct (bind_values_ok ps (Wenv W) h1 (en W) r vs ex h' L K (voks_ext _ _ _ (ext_env W) Vs) BV) as (W' & b1 & b2 & b3 & b4 & b5 & b6 & b7 & b8).
    assert (X : ext W W') by (eapply ext_trans; [apply ext_env|exact b1]).
    assert (Hc : forall a, get_cell h1 a = get_cell (m_sto s) a) by (intro a; injection A as _ <-; reflexivity).
    exists W'. split; auto. split.
    + apply (inv_h W W' s (CBody (en W) b) [] [] (m_stack s) h'); auto; try (intros g []).
      * cbn in b5. lia.
      * cbn. apply b1. split; cbn; [lia|]. intro Z. apply (i_in W s H) in Z. lia.
      * intros a Z. rewrite b7; auto.
    + apply quiet_kept; cbn [m_sto goh].
      * intros a (Z & _). rewrite b7; auto.
      * intros e x (Z & _). rewrite b8 by (cbn in Z; lia). replace h1 with (snd (alloc_env (Some pe) (m_sto s))) by now rewrite A.
        apply env_binding. rewrite <- (s_e W _ K0). exact Z.
  - intros E. apply (dynthrow_good W s j _ [] (m_stack s) s' H eq_refl) in E; auto; [intros g []|]. destruct vs; [exact Logic.I|now inversion Vs].
Qed.
Lemma app_good W s e f args s' : inv W s -> m_ctrl s = CApp e f args -> app_step s e f args (m_stack s) = Next s' -> good W s s'.
Proof.
  intros H E. pose proof (i_ctrl W s H) as C. rewrite E in C. destruct C as (C1 & C2). assert (P : plain_c (m_ctrl s) = true) by now rewrite E.
  unfold app_step, errork. destruct f as [a|a|ps r b pe|p|j]; try (intros [= <-]; apply good_keep; auto; cbn; auto; fail).
  - intro A. apply (apply_good W s e ps r b pe args [] (m_stack s) s' H eq_refl); auto. intros g [].
  - destruct args as [|a args].
    + intro A. exact (dynthrow_good W s j (MA ANil) [] (m_stack s) s' H eq_refl (fun g F => match F with end) P Logic.I A).
    + intros [= <-]. apply good_push; auto; cbn; auto.
Qed.
Lemma func_good W s p vs s' : inv W s -> m_ctrl s = CFunc p vs -> func_step s p vs (m_stack s) = Next s' -> good W s s'.
Proof.
  intros H E. pose proof (i_ctrl W s H) as C. rewrite E in C. cbn [cok] in C. assert (P : plain_c (m_ctrl s) = true) by now rewrite E.
  assert (Ge : forall s', errork s (m_stack s) = Next s' -> good W s s').
  { unfold errork. intros s1 [= <-]. apply good_keep; auto. constructor. }
  assert (G : forall v h, simple_prim p vs (m_sto s) = Some (v, h) -> good W s (goh s (CRet v) (m_stack s) h)).
  { intros v h A. destruct (simple_ok W (m_sto s) p vs v h (proj1 (i_in W s H)) (i_sto W s H) C A) as (W' & a1 & a2 & a3 & a4 & a5 & a6 & a7 & a8 & a9 & a10).
    exists W'. split; auto. split.
    - apply (inv_h W W' s (CRet v) [] [] (m_stack s) h); auto; intros g [].
    - split; cbn [m_sto goh].
      + destruct a10 as [->|[->|a10]]; [left; exists PSetCar, vs; auto|left; exists PSetCdr, vs; auto|right]. intros a (Z & _). now apply a10.
      + intros e x _. right. unfold binding. now rewrite a8. }
  destruct p; cbn [func_step];
    try (destruct (simple_prim _ _ _) as [[v h]|] eqn:A; [intros [= <-]; now apply G|apply Ge]; fail).
  - destruct vs as [|tag [|thunk [|hd r]]]; try apply Ge. destruct (_ && _ && _); [|apply Ge]. destruct (100 <=? _); [apply Ge|].
    destruct (m_under s); [|discriminate]. intros [= <-]. inversion C as [|? ? V1 C1]; subst. inversion C1 as [|? ? V2 C2]; subst. inversion C2 as [|? ? V3 C3]; subst.
    eapply good_ext; [apply (good_push W s (CApp 0 thunk []) (FCatch (m_next s) tag hd true (m_wind s)) H P)|..]; try reflexivity.
    + split; [apply (i_g W s H)|exact V2].
    + split; auto.
  - destruct vs as [|[[| |key| |]| | | |] r]; try apply Ge. intros [= <-]. apply good_keep; auto. now inversion C.
Qed.

(** ** catch and throw *)
Lemma unwind_split : forall k id t h w k', unwind_to id k = Some (t, h, w, k') -> exists p b, k = p ++ FCatch id t h b w :: k'.
Proof.
  induction k as [|f k IH]; intros id t h w k'; cbn; [discriminate|].
  assert (G : unwind_to id k = Some (t, h, w, k') -> exists p b, f :: k = p ++ FCatch id t h b w :: k').
  { intro A. destruct (IH _ _ _ _ _ A) as (p & b & ->). exists (f :: p), b. reflexivity. }
  destruct f; auto. destruct (Nat.eqb_spec id0 id) as [->|]; auto. intros [= -> -> -> ->]. exists [], body. reflexivity.
Qed.
Lemma find_split key k : forall cs id t h w k', find_catch cs k key = Found id t h w k' -> exists p b, k = p ++ FCatch id t h b w :: k'.
Proof.
  induction cs as [|c cs IH]; intros id t h w k'; cbn; [discriminate|]. destruct (unwind_to c k) as [[[[t1 h1] w1] k1]|] eqn:U; [|discriminate].
  destruct (tag_match t1 key); eauto. intros [= <- <- <- <- <-]. now apply unwind_split.
Qed.
Lemma good_cut W s c p q k : inv W s -> m_stack s = p ++ k -> plain_c (m_ctrl s) = true -> plain_c c = true ->
  (forall W', ext W W' -> cok W' c /\ Forall (fok W') q) -> (forall f, In f q -> building f = false) -> good W s (go s c (q ++ k)).
Proof.
  intros H E P1 P2 C B. pose proof H as [i1 i2 i3 i4 i5 i6 (cs & es & cs' & es' & O1 & O2 & R1 & R2) i8 i9].
  pose proof O1 as O1'. apply plain_own_inv in O1'; auto. destruct O1' as (-> & ->). cbn in R1, R2.
  rewrite E in O2. destruct (own_split _ _ _ _ _ O2) as (c1 & e1 & c2 & e2 & -> & -> & O3 & O4).
  assert (X : ext W (drop W c2 e2)). { apply ext_drop; [rewrite R1|rewrite R2]; intros z Z; apply in_or_app; auto. }
  destruct (C _ X) as (C1 & C2). exists (drop W c2 e2). split; auto. split; [|now apply quiet_same].
  rewrite go_goh. eapply (inv_drop W s c p q k (m_sto s)); eauto.
Qed.
Lemma throw_good W s key args s' : inv W s -> m_ctrl s = CThrow key args -> throw_step s key args (m_stack s) = Next s' -> good W s s'.
Proof.
  intros H E. pose proof (i_ctrl W s H) as C. rewrite E in C. cbn [cok] in C. assert (P : plain_c (m_ctrl s) = true) by now rewrite E.
  unfold throw_step. destruct (find_catch (m_catch s) (m_stack s) key) as [id t h w k'| |] eqn:F; try discriminate. intros [= <-].
  destruct (find_split _ _ _ _ _ _ _ _ F) as (p & b & K).
  assert (Vf : fok W (FCatch id t h b w)). { pose proof (i_stack W s H) as Z. rewrite K in Z. apply Forall_app in Z. destruct Z as (_ & Z). now inversion Z. }
  destruct Vf as (Vt & Vh).
  eapply good_ext; [apply (good_cut W s (CVals h (MA (ASym key) :: args)) (p ++ [FCatch id t h b w]) [FCatch id t h false w] k' H)|..]; try reflexivity; auto.
  - rewrite <- app_assoc. exact K.
  - intros W' X. split; [split; [now apply (vok_ext W)|constructor; [exact Logic.I|now apply (voks_ext W)]]|]. constructor; auto. split; now apply (vok_ext W).
  - intros f [<-|[]]. reflexivity.
Qed.
Lemma jump_good W s j v s' : inv W s -> safe_arrival s -> m_ctrl s = CJump j v -> step s = Next s' -> good W s s'.
Proof.
  intros H SA E. pose proof (i_ctrl W s H) as C. rewrite E in C. cbn [cok] in C. assert (P : plain_c (m_ctrl s) = true) by now rewrite E.
  unfold step. rewrite E. destruct (nth_error (m_conts s) j) as [[k' w]|] eqn:N; [|discriminate]. intros [= <-].
  destruct (SA j v k' w E N) as [(p & Q)|Q].
  - apply (good_cut W s (CRet v) p [] k' H Q P eq_refl); [|intros f []]. intros W' X. split; auto. now apply (vok_ext W).
  - rewrite <- (app_nil_r k'). apply (good_cut W s (CRet v) (m_stack s) k' [] H); auto.
    + now rewrite app_nil_r.
    + intros W' X. split; [now apply (vok_ext W)|]. eapply foks_ext; [exact X|]. eapply (i_conts W s H); eauto.
Qed.
