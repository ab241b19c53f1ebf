(** The invariant of memory is kept by every step. *)
From Coq Require Import String List ZArith Bool Lia.
From Verif Require Import MachModel MachSpec MachProofs MachProofs2 MachProofs3.
Import ListNotations.
Local Open Scope string_scope.
Local Open Scope list_scope.
Local Open Scope nat_scope.

Lemma inv_ext W s s' : inv W s -> m_sto s' = m_sto s -> m_ctrl s' = m_ctrl s -> m_stack s' = m_stack s -> m_conts s' = m_conts s -> m_guards s' = m_guards s -> inv W s'.
Proof.
  intros [i1 i2 i3 i4 i5 i6 i7 i8 i9] A B C D E. constructor; rewrite ?A, ?B, ?C, ?D, ?E; auto.
Qed.
Lemma good_ext W s s1 s' : good W s s1 -> m_sto s' = m_sto s1 -> m_ctrl s' = m_ctrl s1 -> m_stack s' = m_stack s1 -> m_conts s' = m_conts s1 -> m_guards s' = m_guards s1 -> good W s s'.
Proof.
  intros (W' & X & I1 & (Q & R)) A B C D E. exists W'. split; auto. split; [eapply inv_ext; eauto|]. split; rewrite A; auto.
Qed.
(* splits conjunctions that are written as such *)
Ltac sp := match goal with |- _ /\ _ => split; [|sp] | _ => idtac end.
Definition closed_c (h : store) (cs : list nat) : Prop := forall a, In a cs -> exists c, get_cell h a = Some c /\ forall b, c_next c = Some b -> In b cs.
Lemma closed_app h a b : closed_c h a -> closed_c h b -> closed_c h (a ++ b).
Proof.
  intros A B x H. apply in_app_or in H. destruct H as [H|H]; [apply A in H|apply B in H]; destruct H as (c & G & N); exists c; split; auto; intros; apply in_or_app; eauto.
Qed.
Lemma own_c_closed h c cs es : own_c h c cs es -> closed_c h cs.
Proof. destruct c; cbn; intros (A & B); first [destruct A as (_ & _ & A); exact A|rewrite A; intros zz ZZ; destruct ZZ]. Qed.
Lemma own_k_closed h k cs es : own_k h k cs es -> closed_c h cs.
Proof.
  induction 1; [intros x []|]. apply closed_app; auto. destruct f; cbn in H; destruct H as (A & B); first [destruct A as (_ & _ & A); exact A|rewrite A; intros zz ZZ; destruct ZZ].
Qed.
Lemma own_split h p : forall k cs es, own_k h (p ++ k) cs es -> exists cs1 es1 cs2 es2, cs = cs1 ++ cs2 /\ es = es1 ++ es2 /\ own_k h p cs1 es1 /\ own_k h k cs2 es2.
Proof.
  induction p as [|f p IH]; cbn; intros k cs es H.
  - exists [], [], cs, es. split; auto. split; auto. split; auto. constructor.
  - inversion H as [|f' k' c1 e1 c2 e2 F K]; subst. destruct (IH _ _ _ K) as (c3 & e3 & c4 & e4 & -> & -> & Q & R).
    exists (c1 ++ c3), (e1 ++ e3), c4, e4. rewrite !app_assoc. split; auto. split; auto. split; auto. constructor; auto.
Qed.
Lemma own_push h q k cs es : (forall f, In f q -> building f = false) -> own_k h k cs es -> own_k h (q ++ k) cs es.
Proof.
  intros B K. induction q as [|f q IH]; cbn; auto. change cs with ([] ++ cs). change es with ([] ++ es). constructor; [|apply IH; intros; apply B; right; auto].
  specialize (B f (or_introl eq_refl)). destruct f; cbn in *; auto; discriminate.
Qed.
Lemma own_plain h p cs es : (forall f, In f p -> building f = false) -> own_k h p cs es -> cs = [] /\ es = [].
Proof.
  intros B K. induction K; auto. assert (X : cs = [] /\ es = []).
  { specialize (B f (or_introl eq_refl)). destruct f; cbn in *; auto; discriminate. }
  destruct X as (-> & ->). apply IHK. intros. apply B. right. auto.
Qed.

(* everything under construction by the control and by the frames p is dropped or finished *)
Lemma inv_drop W s c p q k h' cs es cs1 es1 cs2 es2 : inv W s -> m_stack s = p ++ k ->
  own_c (m_sto s) (m_ctrl s) cs es -> own_k (m_sto s) p cs1 es1 -> own_k (m_sto s) k cs2 es2 -> oc W = cs ++ cs1 ++ cs2 -> oe W = es ++ es1 ++ es2 ->
  h_cells h' = h_cells (m_sto s) -> sok W h' -> plain_c c = true -> cok (drop W cs2 es2) c -> Forall (fok (drop W cs2 es2)) q -> (forall f, In f q -> building f = false) ->
  ext W (drop W cs2 es2) /\ inv (drop W cs2 es2) (goh s c (q ++ k) h').
Proof.
  intros [i1 i2 i3 i4 i5 i6 i7 (i8 & i8') (i9 & i9')] E O1 O2 O3 Ec Ee H' S' P C Q B.
  assert (Ic : incl cs2 (oc W)) by (rewrite Ec, app_assoc; intros x X; apply in_or_app; auto).
  assert (Ie : incl es2 (oe W)) by (rewrite Ee, app_assoc; intros x X; apply in_or_app; auto).
  pose proof (ext_drop W cs2 es2 Ic Ie) as X. split; auto.
  assert (G : forall a, get_cell h' a = get_cell (m_sto s) a) by (intro; unfold get_cell; now rewrite H').
  constructor; cbn [m_sto m_ctrl m_stack m_conts m_guards goh]; auto.
  - apply sok_drop; auto. intros a d b I1 N G1 Nx. rewrite G in G1.
    assert (D : In a (cs ++ cs1)). { rewrite Ec, app_assoc in I1. apply in_app_or in I1. tauto. }
    destruct (closed_app _ _ _ (own_c_closed _ _ _ _ O1) (own_k_closed _ _ _ _ O2) a D) as (d' & G2 & N2).
    rewrite G1 in G2. injection G2 as <-. specialize (N2 b Nx). rewrite Ec, app_assoc in i8 |- *.
    split; [apply in_or_app; auto|]. split; [apply i9; rewrite Ec, app_assoc; apply in_or_app; auto|]. eapply nodup_app_l; eauto.
  - rewrite E in i3. apply Forall_app in i3. apply Forall_app. split; auto. eapply foks_ext; [eauto|]. tauto.
  - intros j k1 w1 Z. eapply foks_ext; eauto.
  - eapply Forall_impl; [|exact i5]. intros x (Y & Z). split; eapply vok_ext; eauto.
  - now apply X.
  - exists [], [], cs2, es2. split; [now apply plain_own|]. split; auto. apply own_push; auto.
    eapply own_k_kept; [|exact O3]. intros a _. apply G.
  - cbn. rewrite Ec, app_assoc in i8. rewrite Ee, app_assoc in i8'. split; eapply nodup_app_r; eauto.
Qed.
(* finished cells and environments are added or replaced *)
Lemma inv_h W W' s c p q k h' : inv W s -> m_stack s = p ++ k -> plain_c (m_ctrl s) = true -> plain_c c = true -> ext W W' ->
  oc W' = oc W -> oe W' = oe W -> wn W <= wn W' -> en W <= en W' -> sok W' h' -> cok W' c -> Forall (fok W') q ->
  (forall f, In f p -> building f = false) -> (forall f, In f q -> building f = false) ->
  cells_kept (fun a => In a (oc W)) (m_sto s) h' -> inv W' (goh s c (q ++ k) h').
Proof.
  intros [i1 i2 i3 i4 i5 i6 i7 (i8 & i8') (i9 & i9')] E P1 P2 X Ec Ee Ln Le S' C Q B1 B2 K.
  constructor; cbn [m_sto m_ctrl m_stack m_conts m_guards goh]; auto.
  - rewrite E in i3. apply Forall_app in i3. apply Forall_app. split; auto. eapply foks_ext; [eauto|]. tauto.
  - intros j k1 w1 Z. eapply foks_ext; eauto.
  - eapply Forall_impl; [|exact i5]. intros x (Y & Z). split; eapply vok_ext; eauto.
  - now apply X.
  - destruct i7 as (cs & es & cs' & es' & A & O & R1 & R2). apply plain_own_inv in A; auto. destruct A as (-> & ->). cbn in R1, R2.
    rewrite E in O. destruct (own_split _ _ _ _ _ O) as (c1 & e1 & c2 & e2 & -> & -> & O1 & O2). apply own_plain in O1; auto. destruct O1 as (-> & ->).
    exists [], [], c2, e2. split; [now apply plain_own|]. rewrite Ec, Ee. split; auto. apply own_push; auto.
    eapply own_k_kept; [|exact O2]. rewrite R1 in K. exact K.
  - rewrite Ec, Ee. auto.
  - rewrite Ec, Ee. split; intros x I1; [apply i9 in I1|apply i9' in I1]; lia.
Qed.

(** ** the primitives *)
(* a store with more finished cells, nothing else changed *)
Record grown (W : world) (h : store) (W' : world) (h' : store) : Prop := {
  g_ext : ext W W';
  g_oc : oc W' = oc W; g_oe : oe W' = oe W; g_wn : wn W <= wn W'; g_en : en W' = en W;
  g_sok : sok W' h';
  g_cells : cells_kept (fun a => a < wn W) h h';
  g_envs : h_envs h' = h_envs h }.
Lemma grown_refl W h : sok W h -> grown W h W h.
Proof. intro. constructor; auto using ext_refl. intros a _. reflexivity. Qed.
Lemma grown_trans W h W1 h1 W2 h2 : grown W h W1 h1 -> grown W1 h1 W2 h2 -> grown W h W2 h2.
Proof.
  intros [a1 a2 a3 a4 a5 a6 a7 a8] [b1 b2 b3 b4 b5 b6 b7 b8]. constructor; auto; try congruence; try lia.
  - eapply ext_trans; eauto.
  - intros a L. rewrite b7; [auto|lia].
Qed.
Lemma grown_cell W h d n dot : (forall a, In a (oc W) -> a < wn W) -> sok W h -> vok W d -> pok W n ->
  grown W h (Wcell W) (snd (alloc_cell d n dot h)) /\ fst (alloc_cell d n dot h) = wn W /\ aok (Wcell W) (wn W).
Proof.
  intros L K D N. assert (F : ~ In (wn W) (oc W)) by (intro X; apply L in X; lia).
  destruct (sok_alloc W h d n dot K D N F) as (A & B). split; [|split; auto].
  - constructor; cbn; auto using ext_cell. apply kept_alloc. intros a. rewrite (s_n W h K). auto.
  - split; cbn; auto.
Qed.
Lemma grown_in W h W' h' : grown W h W' h' -> (forall a, In a (oc W) -> a < wn W) -> forall a, In a (oc W') -> a < wn W'.
Proof. intros G L a. rewrite (g_oc _ _ _ _ G). intro I1. apply L in I1. pose proof (g_wn _ _ _ _ G). lia. Qed.
Lemma alloc_list_ok : forall vs W h, (forall a, In a (oc W) -> a < wn W) -> sok W h -> Forall (vok W) vs ->
  exists W', grown W h W' (snd (alloc_list vs h)) /\ vok W' (fst (alloc_list vs h)).
Proof.
  induction vs as [|v vs IH]; intros W h L K V; cbn.
  - exists W. split; [now apply grown_refl|exact Logic.I].
  - inversion V as [|x y V1 V2]; subst. destruct (IH W h L K V2) as (W1 & G1 & T). destruct (alloc_list vs h) as (t, h1) eqn:E. cbn in G1, T.
    pose proof (vok_ext _ _ _ (g_ext _ _ _ _ G1) V1) as V1'.
    assert (N : pok W1 (match t with MList b => Some b | _ => None end)) by (destruct t; cbn in *; auto).
    destruct (grown_cell W1 h1 v _ false (grown_in _ _ _ _ G1 L) (g_sok _ _ _ _ G1) V1' N) as (G2 & A & O).
    cbn in G2 |- *. exists (Wcell W1). split; [eapply grown_trans; eauto|]. cbn in A. rewrite A. exact O.
Qed.
Lemma cdr_cells_ok W h v n h' : (forall a, In a (oc W) -> a < wn W) -> sok W h -> vok W v -> cdr_cells v h = (n, h') ->
  exists W', grown W h W' h' /\ pok W' n.
Proof.
  intros L K V. assert (A : alloc_cell v None true h = (fst (alloc_cell v None true h), h') -> n = Some (fst (alloc_cell v None true h)) -> exists W', grown W h W' h' /\ pok W' n).
  { intros X ->. destruct (grown_cell W h v None true L K V Logic.I) as (G & Y & Z). exists (Wcell W). rewrite X in G. cbn in G. split; auto. cbn. cbn in Y. now rewrite Y. }
  destruct v as [[| | | |]|b| | |]; unfold cdr_cells; intro E; try (cbn in E; injection E as <- <-; apply A; reflexivity).
  - injection E as <- <-. exists W. split; [now apply grown_refl|exact Logic.I].
  - injection E as <- <-. exists W. split; [now apply grown_refl|exact V].
Qed.
Lemma simple_ok W h p vs v h' : (forall a, In a (oc W) -> a < wn W) -> sok W h -> Forall (vok W) vs -> simple_prim p vs h = Some (v, h') ->
  exists W', ext W W' /\ oc W' = oc W /\ oe W' = oe W /\ wn W <= wn W' /\ en W <= en W' /\ sok W' h' /\ vok W' v /\ h_envs h' = h_envs h /\
    cells_kept (fun a => In a (oc W)) h h' /\ (p = PSetCar \/ p = PSetCdr \/ cells_kept (fun a => a < wn W) h h').
Proof.
  intros L K V E.
  assert (G : forall W', grown W h W' h' -> vok W' v -> exists W', ext W W' /\ oc W' = oc W /\ oe W' = oe W /\ wn W <= wn W' /\ en W <= en W' /\ sok W' h' /\ vok W' v /\ h_envs h' = h_envs h /\
    cells_kept (fun a => In a (oc W)) h h' /\ (p = PSetCar \/ p = PSetCdr \/ cells_kept (fun a => a < wn W) h h')).
  { intros W' [a1 a2 a3 a4 a5 a6 a7 a8] V'. exists W'. sp; auto; try lia. eapply kept_sub; [|exact a7]. auto. }
  assert (G0 : h' = h -> vok W v -> exists W', ext W W' /\ oc W' = oc W /\ oe W' = oe W /\ wn W <= wn W' /\ en W <= en W' /\ sok W' h' /\ vok W' v /\ h_envs h' = h_envs h /\
    cells_kept (fun a => In a (oc W)) h h' /\ (p = PSetCar \/ p = PSetCdr \/ cells_kept (fun a => a < wn W) h h')).
  { intros -> V'. apply (G W); auto using grown_refl. }
  destruct p; cbn in E; try discriminate E.
  - injection E as E. destruct (alloc_list_ok vs W h L K V) as (W' & A & B). rewrite E in A, B. eauto.
  - destruct vs as [|a [|b [|]]]; try discriminate E. inversion V as [|? ? V1 V']; subst. inversion V' as [|? ? V2 _]; subst.
    destruct (cdr_cells b h) as (n, h1) eqn:C. injection E as <- <-. destruct (cdr_cells_ok W h b n h1 L K V2 C) as (W1 & A & B).
    destruct (grown_cell W1 h1 a n false (grown_in _ _ _ _ A L) (g_sok _ _ _ _ A) (vok_ext _ _ _ (g_ext _ _ _ _ A) V1) B) as (D & X & Y).
    cbn in X. rewrite X in *. apply (G (Wcell W1)); [eapply grown_trans; eauto|exact Y].
  - destruct vs as [|[|a| | |] [|]]; try discriminate E. destruct (get_cell h a) as [c|] eqn:C; [|discriminate E]. injection E as <- <-. apply G0; auto. eapply s_data; eauto.
  - destruct vs as [|[|a| | |] [|]]; try discriminate E. destruct (get_cell h a) as [c|] eqn:C; [|discriminate E]. injection E as <- <-. apply G0; auto.
    unfold do_cdr. destruct (c_next c) as [b|] eqn:N; [|exact Logic.I]. destruct (get_cell h b) as [d|] eqn:D; [|exact Logic.I].
    destruct (c_dot d); [eapply s_data; eauto|]. inversion V as [|? ? V1 _]; subst. eapply (s_next W h K a); eauto.
  - destruct vs as [|[|a| | |] [|b [|]]]; try discriminate E. destruct (get_cell h a) as [c|] eqn:C; [|discriminate E]. injection E as <- <-.
    inversion V as [|? ? V1 V']; subst. inversion V' as [|? ? V2 _]; subst. exists W. sp; auto using ext_refl; try exact Logic.I; try lia.
    + eapply sok_set; eauto. cbn. intro A. destruct (c_next c) as [x|] eqn:N; [|exact Logic.I]. eapply (s_next W h K a); eauto.
    + apply kept_set. apply V1.
  - destruct vs as [|[|a| | |] [|b [|]]]; try discriminate E. destruct (cdr_cells b h) as (n, h1) eqn:C0.
    destruct (get_cell h1 a) as [c|] eqn:C; [|discriminate E]. injection E as <- <-.
    inversion V as [|? ? V1 V']; subst. inversion V' as [|? ? V2 _]; subst.
    destruct (cdr_cells_ok W h b n h1 L K V2 C0) as (W1 & A & B). pose proof (vok_ext _ _ _ (g_ext _ _ _ _ A) V1) as V1'. destruct A as [a1 a2 a3 a4 a5 a6 a7 a8].
    exists W1. sp; auto; try exact Logic.I; try lia.
    + eapply sok_set; eauto. cbn. eapply s_data; eauto.
    + intros x I1. unfold get_cell. cbn. rewrite nth_upd. destruct (Nat.eqb_spec x a) as [->|].
      * exfalso. now apply V1.
      * apply a7. auto.
  - destruct (ints vs) as [l|]; [|discriminate E]. injection E as <- <-. apply G0; auto. exact Logic.I.
  - destruct (ints vs) as [[|x [|y [|]]]|]; try discriminate E. injection E as <- <-. apply G0; auto. exact Logic.I.
  - destruct (ints vs) as [[|x [|y [|]]]|]; try discriminate E. injection E as <- <-. apply G0; auto. exact Logic.I.
  - destruct vs as [|x [|]]; try discriminate E. injection E as <- <-. apply G0; auto. exact Logic.I.
Qed.
(* the parameters of a new environment *)
Lemma bind_values_ok : forall ps W h fe r vs ex h', (forall a, In a (oc W) -> a < wn W) -> sok W h -> Forall (vok W) vs -> bind_values fe ps r vs ex h = Some h' ->
  exists W', ext W W' /\ oc W' = oc W /\ oe W' = oe W /\ wn W <= wn W' /\ en W' = en W /\ sok W' h' /\ cells_kept (fun a => a < wn W) h h' /\
    forall e x, e <> fe -> binding h' e x = binding h e x.
Proof.
  induction ps as [|p ps IH]; intros W h fe r vs ex h' L K V; cbn.
  - destruct r as [y|].
    + destruct (alloc_list_ok vs W h L K V) as (W' & G & T). destruct (alloc_list vs h) as (t, h1). cbn in G, T. intros [= <-].
      exists W'. destruct G as [a1 a2 a3 a4 a5 a6 a7 a8]. sp; auto; try lia; try (rewrite ?put_len; auto; fail).
      * now apply sok_put.
      * intros a A. unfold get_cell. rewrite put_cells. now apply a7.
      * intros e x N. rewrite put_binding; auto. unfold binding. now rewrite a8.
    + destruct vs; [|discriminate]. intros [= <-]. exists W. sp; auto using ext_refl; try (intros a _; reflexivity).
  - destruct vs as [|v vs].
    + destruct ex; [discriminate|]. destruct r; [|discriminate]. intros [= <-]. exists W. sp; auto using ext_refl; try (intros a _; reflexivity).
    + intro E. inversion V as [|? ? V1 V2]; subst. destruct (IH W (env_put fe p v h) fe r vs ex h' L (sok_put _ _ _ _ _ K V1) V2 E) as (W' & b1 & b2 & b3 & b4 & b5 & b6 & b7 & b8).
      exists W'. sp; auto.
      * intros a A. rewrite b7; auto. unfold get_cell. now rewrite put_cells.
      * intros e x N. rewrite b8; auto. apply put_binding. auto.
Qed.
