(** Every step keeps the invariant of memory: returns and loops. *)
From Coq Require Import String List ZArith Bool Lia.
From Verif Require Import MachModel MachSpec MachProofs MachProofs2 MachProofs3 MachProofs4 MachProofs5.
Import ListNotations.
Local Open Scope string_scope.
Local Open Scope list_scope.
Local Open Scope nat_scope.

Lemma own_cons h f k cs es : own_k h (f :: k) cs es -> exists c1 e1 c2 e2, cs = c1 ++ c2 /\ es = e1 ++ e2 /\ own_f h f c1 e1 /\ own_k h k c2 e2.
Proof. intro H. inversion H as [|f' k' c1 e1 c2 e2 O3 O4]. exists c1, e1, c2, e2. auto. Qed.
(** ** a list grows at its end *)
Definition grow (v : mv) (tail : option nat) (h : store) : store := link_cell tail (length (h_cells h)) (snd (alloc_cell v None false h)).
Lemma grow_get v tail h a : get_cell (grow v tail h) a =
  if match tail with Some t => Nat.eqb a t | None => false end then
    match get_cell (snd (alloc_cell v None false h)) a with Some c => Some (mkCell (c_data c) (Some (length (h_cells h))) (c_dot c)) | None => None end
  else get_cell (snd (alloc_cell v None false h)) a.
Proof.
  unfold grow. destruct tail as [t|]; [|reflexivity]. cbn [link_cell].
  destruct (get_cell (snd (alloc_cell v None false h)) t) as [c|] eqn:G.
  - unfold get_cell at 1. cbn [set_cell h_cells]. rewrite nth_upd. unfold get_cell in G |- *. destruct (Nat.eqb_spec a t) as [->|]; auto. now rewrite G.
  - destruct (Nat.eqb_spec a t) as [->|]; auto. rewrite G. auto.
Qed.
Lemma new_get v h a : get_cell (snd (alloc_cell v None false h)) a = if Nat.eqb a (length (h_cells h)) then Some (mkCell v None false) else get_cell h a.
Proof. unfold get_cell. cbn. apply nth_snoc. Qed.
Lemma built_add h head tail cs v : built h head tail cs -> (forall a, In a cs -> a < length (h_cells h)) ->
  built (grow v tail h) (match tail with None => Some (length (h_cells h)) | Some _ => head end) (Some (length (h_cells h))) (length (h_cells h) :: cs).
Proof.
  intros (A & B & C) L. split; [|split].
  - intros a. destruct tail; [intro Z; right; auto|intros [= <-]; left; auto].
  - intros a [= <-]. left. auto.
  - intros a Z. rewrite grow_get, new_get. destruct (Nat.eqb_spec a (length (h_cells h))) as [->|N].
    + assert (Y : match tail with Some t => Nat.eqb (length (h_cells h)) t | None => false end = false).
      { destruct tail as [t|]; auto. apply Nat.eqb_neq. specialize (L t (B t eq_refl)). lia. }
      rewrite Y. eexists. split; [reflexivity|]. cbn. discriminate.
    + destruct Z as [Z|Z]; [congruence|]. destruct (C a Z) as (c & G & Q). rewrite G.
      destruct (match tail with Some t => Nat.eqb a t | None => false end); eexists; (split; [reflexivity|]); cbn.
      * intros b [= <-]. left. auto.
      * intros b Y. right. eauto.
Qed.
Lemma grow_ok W h v head tail cs cs' : sok W h -> vok W v -> built h head tail cs -> oc W = cs ++ cs' -> NoDup (oc W) -> (forall a, In a (oc W) -> a < wn W) ->
  sok (Wopen W) (grow v tail h) /\
  built (grow v tail h) (match tail with None => Some (wn W) | Some _ => head end) (Some (wn W)) (wn W :: cs) /\
  cells_kept (fun a => In a cs') h (grow v tail h) /\ cells_kept (aok W) h (grow v tail h) /\ h_envs (grow v tail h) = h_envs h.
Proof.
  intros K V B R D L. destruct (sok_alloc_open W h v K V) as (K1 & Fr). cbn in Fr.
  assert (Tl : forall a, tail = Some a -> In a cs) by (intros a ->; now apply B).
  assert (Lc : forall a, In a cs -> a < wn W) by (intros a Z; apply L; rewrite R; apply in_or_app; auto).
  pose proof (s_n W h K) as N.
  assert (KK : forall P : nat -> Prop, (forall a, P a -> a < wn W /\ ~ In a cs) -> cells_kept P h (grow v tail h)).
  { intros P Q a Z. destruct (Q a Z) as (Z1 & Z2). rewrite grow_get, new_get. destruct (Nat.eqb_spec a (length (h_cells h))); [lia|].
    destruct tail as [t|]; auto. destruct (Nat.eqb_spec a t) as [->|]; auto. exfalso. apply Z2. auto. }
  sp.
  - apply sok_link; auto. intros a Z. cbn. right. rewrite R. apply in_or_app. left. auto.
  - rewrite N. apply built_add; auto. rewrite <- N. auto.
  - apply KK. intros a Z. split; [apply L; rewrite R; apply in_or_app; auto|]. intro Y. rewrite R in D. eapply nodup_app_l; eauto.
  - apply KK. intros a (Z1 & Z2). split; auto. intro Y. apply Z2. rewrite R. apply in_or_app. auto.
  - unfold grow. rewrite link_envs. reflexivity.
Qed.

Lemma in_fe W s ce fe y p0 ps r args b k : inv W s -> plain_c (m_ctrl s) = true ->
  (m_stack s = FBind ce fe y ps r args b :: k \/ exists head tail, m_stack s = FRest ce fe p0 head tail args b :: k) -> In fe (oe W).
Proof.
  intros [i1 i2 i3 i4 i5 i6 (cs & es & cs' & es' & O1 & O2 & R1 & R2) i8 i9] P E. apply plain_own_inv in O1; auto. destruct O1 as (-> & ->). rewrite R2. cbn.
  destruct E as [E|(hd & tl & E)]; rewrite E in O2; inversion O2; subst; match goal with Q : own_f _ _ _ _ |- _ => destruct Q as (Q1 & ->) end; cbn; auto.
Qed.
Lemma bind_good W s v ce fe y ps r args b k s' : inv W s -> m_ctrl s = CRet v -> m_stack s = FBind ce fe y ps r args b :: k ->
  ret_step s v (FBind ce fe y ps r args b) k = Next s' -> good W s s'.
Proof.
  intros H E K. assert (P : plain_c (m_ctrl s) = true) by now rewrite E.
  assert (Hfe : In fe (oe W)) by (eapply (in_fe W s ce fe y y); eauto).
  pose proof (stack_tail W s _ _ H K) as (F1 & F2). cbn in F1. pose proof (i_ctrl W s H) as V. rewrite E in V. cbn in V.
  assert (G : forall c, cok W c -> own_c (env_put fe y v (m_sto s)) c [] [fe] -> good W s (goh s c k (env_put fe y v (m_sto s)))).
  { intros c C O. exists W. split; [apply ext_refl|]. split.
    - pose proof H as [i1 i2 i3 i4 i5 i6 (cs & es & cs' & es' & O1 & O2 & R1 & R2) i8 i9]. apply (inv_build W); auto using ext_refl, sok_put.
      + apply plain_own_inv in O1; auto. destruct O1 as (-> & ->). cbn in R1, R2. rewrite K in O2. destruct (own_cons _ _ _ _ _ O2) as (c1 & e1 & c2 & e2 & Q1 & Q2 & O3 & O4). rewrite Q1 in R1. rewrite Q2 in R2.
        destruct O3 as (Q3 & Q4); subst c1 e1. exists [], [fe], c2, e2. split; auto. split; auto. eapply own_k_kept; [|exact O4]. apply kept_put.
    - apply quiet_kept; cbn [m_sto goh]; [apply kept_put|]. intros e x (_ & Z). apply put_binding. left. intros ->. auto. }
  unfold ret_step. destruct ps as [|p ps].
  - destruct r as [z|]; intros [= <-]; apply G; cbn; auto. split; [|reflexivity]. split; [discriminate|]. split; [discriminate|]. intros a [].
  - intros [= <-]. apply G; cbn; auto.
Qed.
Lemma rest_good W s v ce fe y head tail args b k s' : inv W s -> m_ctrl s = CRet v -> m_stack s = FRest ce fe y head tail args b :: k ->
  ret_step s v (FRest ce fe y head tail args b) k = Next s' -> good W s s'.
Proof.
  intros H E K. assert (P : plain_c (m_ctrl s) = true) by now rewrite E.
  pose proof (stack_tail W s _ _ H K) as (F1 & F2). cbn in F1. pose proof (i_ctrl W s H) as V. rewrite E in V. cbn in V.
  pose proof H as [i1 i2 i3 i4 i5 i6 (cs & es & cs' & es' & O1 & O2 & R1 & R2) (i8 & i8') (i9 & i9')].
  apply plain_own_inv in O1; auto. destruct O1 as (-> & ->). cbn [app] in R1, R2. rewrite K in O2. destruct (own_cons _ _ _ _ _ O2) as (c1 & e1 & c2 & e2 & Q1 & Q2 & O3 & O4). rewrite Q1 in R1. rewrite Q2 in R2.
  destruct O3 as (O3 & Q4); subst e1. destruct (grow_ok W (m_sto s) v head tail c1 c2 i1 V O3 R1 i8 i9) as (g1 & g2 & g3 & g4 & g5).
  unfold ret_step. cbn [alloc_cell]. change (link_cell tail (length (h_cells (m_sto s))) _) with (grow v tail (m_sto s)). rewrite <- (s_n W _ i1). intros [= <-].
  exists (Wopen W). split; [apply ext_open|]. split.
  - apply (inv_build W); auto using ext_open.
    + eapply foks_ext; [apply ext_open|]. auto.
    + exists (wn W :: c1), [fe], c2, e2. sp; cbn; auto.
      * eapply own_k_kept; eauto.
      * now rewrite R1.
    + cbn. split; auto. constructor; auto. intro Z. apply i9 in Z. lia.
    + cbn. split; auto. intros a [<-|Z]; [lia|]. apply i9 in Z. lia.
  - apply quiet_kept; auto. intros e x _. unfold binding. cbn [m_sto goh]. now rewrite g5.
Qed.
Lemma map3_good W s v e f i head tail k s' : inv W s -> m_ctrl s = CRet v -> m_stack s = FMap3 e f i head tail :: k ->
  ret_step s v (FMap3 e f i head tail) k = Next s' -> good W s s'.
Proof.
  intros H E K. assert (P : plain_c (m_ctrl s) = true) by now rewrite E.
  pose proof (stack_tail W s _ _ H K) as (F1 & F2). cbn in F1. destruct F1 as (F1 & F3). pose proof (i_ctrl W s H) as V. rewrite E in V. cbn in V.
  pose proof H as [i1 i2 i3 i4 i5 i6 (cs & es & cs' & es' & O1 & O2 & R1 & R2) (i8 & i8') (i9 & i9')].
  apply plain_own_inv in O1; auto. destruct O1 as (-> & ->). cbn [app] in R1, R2. rewrite K in O2. destruct (own_cons _ _ _ _ _ O2) as (c1 & e1 & c2 & e2 & Q1 & Q2 & O3 & O4). rewrite Q1 in R1. rewrite Q2 in R2.
  destruct O3 as (O3 & Q4); subst e1. destruct (grow_ok W (m_sto s) v head tail c1 c2 i1 V O3 R1 i8 i9) as (g1 & g2 & g3 & g4 & g5).
  unfold ret_step. cbn [alloc_cell]. change (link_cell tail (length (h_cells (m_sto s))) _) with (grow v tail (m_sto s)). rewrite <- (s_n W _ i1). intros [= <-].
  exists (Wopen W). split; [apply ext_open|]. split.
  - apply (inv_build W); auto using ext_open.
    + split; [now apply ext_open|]. eapply vok_ext; [apply ext_open|auto].
    + eapply foks_ext; [apply ext_open|]. auto.
    + exists (wn W :: c1), [], c2, e2. sp; cbn; auto.
      * eapply own_k_kept; eauto.
      * now rewrite R1.
    + cbn. split; auto. constructor; auto. intro Z. apply i9 in Z. lia.
    + cbn. split; auto. intros a [<-|Z]; [lia|]. apply i9 in Z. lia.
  - apply quiet_kept; auto. intros e0 x _. unfold binding. cbn [m_sto goh]. now rewrite g5.
Qed.
(* a step that changes environments or argument lists only *)
Lemma good_sto W s c f k h' : inv W s -> m_stack s = f :: k -> building f = false -> plain_c (m_ctrl s) = true -> plain_c c = true -> cok W c ->
  sok W h' -> h_cells h' = h_cells (m_sto s) -> (forall e x, eok W e -> assigns s x \/ binding h' e x = binding (m_sto s) e x) -> good W s (goh s c k h').
Proof.
  intros H K B P1 P2 C S' Hc Q. assert (G : forall a, get_cell h' a = get_cell (m_sto s) a) by (intro; unfold get_cell; now rewrite Hc).
  exists W. split; [apply ext_refl|]. split.
  - apply (inv_h W W s c [f] [] k h'); auto using ext_refl.
    + intros g [<-|[]]. auto.
    + intros g [].
    + intros a _. auto.
  - split; cbn [m_sto goh]; auto. right. intros a _. auto.
Qed.
Lemma mapstart_good W s v e f i k h1 : inv W s -> m_ctrl s = CRet v -> m_stack s = FMap2 e f :: k ->
  alloc_iter (match v with MList a => Some a | _ => None end) (m_sto s) = (i, h1) -> good W s (goh s (CMapLoop e f i None None) k h1).
Proof.
  intros H E K A. pose proof (stack_tail W s _ _ H K) as (F1 & F2). cbn in F1. pose proof (i_ctrl W s H) as V. rewrite E in V. cbn in V.
  assert (P : plain_c (m_ctrl s) = true) by now rewrite E.
  assert (S1 : sok W h1). { replace h1 with (snd (alloc_iter (match v with MList a => Some a | _ => None end) (m_sto s))) by now rewrite A. apply sok_alloc_iter; [apply (i_sto W s H)|]. destruct v; cbn; auto. }
  assert (Hc : h_cells h1 = h_cells (m_sto s)) by (injection A as _ <-; reflexivity).
  assert (He : h_envs h1 = h_envs (m_sto s)) by (injection A as _ <-; reflexivity).
  exists W. split; [apply ext_refl|]. split.
  - pose proof H as [i1 i2 i3 i4 i5 i6 (cs & es & cs' & es' & O1 & O2 & R1 & R2) i8 i9]. apply (inv_build W); auto using ext_refl.
    + apply plain_own_inv in O1; auto. destruct O1 as (-> & ->). cbn [app] in R1, R2. rewrite K in O2. destruct (own_cons _ _ _ _ _ O2) as (c1 & e1 & c2 & e2 & Q1 & Q2 & O3 & O4). rewrite Q1 in R1. rewrite Q2 in R2.
      destruct O3 as (Q3 & Q4); subst c1 e1. exists [], [], c2, e2. sp; auto.
      * split; [|reflexivity]. split; [discriminate|]. split; [discriminate|]. intros a [].
      * eapply own_k_kept; [|exact O4]. intros a _. unfold get_cell. now rewrite Hc.
  - apply quiet_kept; cbn [m_sto goh]; [intros a _|intros e0 x _]; unfold get_cell, binding; rewrite ?Hc, ?He; reflexivity.
Qed.
Lemma ret_good W s v f k s' : inv W s -> m_ctrl s = CRet v -> m_stack s = f :: k -> ret_step s v f k = Next s' -> good W s s'.
Proof.
  intros H E K. assert (P : plain_c (m_ctrl s) = true) by now rewrite E.
  pose proof (stack_tail W s _ _ H K) as (F1 & F2). pose proof (i_ctrl W s H) as V. rewrite E in V. cbn in V.
  assert (Gp : forall c, building f = false -> plain_c c = true -> cok W c -> good W s (go s c k)) by (intros; eapply good_pop; eauto).
  assert (Gs : forall c g, building f = false -> plain_c c = true -> cok W c -> fok W g -> building g = false -> good W s (go s c (g :: k))) by (intros; eapply good_swap; eauto).
  assert (Ge : forall s', building f = false -> errork s k = Next s' -> good W s s').
  { unfold errork. intros s1 Bf [= <-]. apply Gp; auto. constructor. }
  destruct f.
  - (* FSeq *) destruct rest; intros [= <-]; [apply Gp|apply Gs]; auto.
  - (* FIf *) unfold ret_step. destruct v as [[|[|]| | |]| | | |]; try (intros [= <-]; apply Gp; auto; fail).
    destruct f; intros [= <-]; apply Gp; auto; exact Logic.I.
  - (* FSet *) intros [= <-]. eapply good_sto; [exact H|exact K|reflexivity|exact P|reflexivity|exact Logic.I|apply sok_set_var; auto; apply (i_sto W s H)|apply set_var_cells|].
    intros e0 y _. destruct (String.eqb_spec y x) as [->|N]; [left; exists v, e, k; auto|right; now apply set_var_other].
  - (* FDef *) intros [= <-]. eapply good_sto; [exact H|exact K|reflexivity|exact P|reflexivity|exact Logic.I|apply sok_put; auto; apply (i_sto W s H)|apply put_cells|].
    intros e0 y _. destruct (String.eqb_spec y x) as [->|N]; [left; exists v, e, k; auto|right; now apply put_binding; auto].
  - (* FOp *) intros [= <-]. apply Gp; auto. split; auto.
  - (* FArgs *) unfold ret_step. destruct (alloc_arg v (m_sto s)) as (n, h1) eqn:A. intros [= <-].
    pose proof (sok_arg W (m_sto s) v tail (i_sto W s H) V) as S1. pose proof (arg_cells v tail (m_sto s)) as (Hc & He). rewrite A in S1, Hc, He. cbn [fst snd] in S1, Hc, He.
    eapply good_sto; [exact H|exact K|reflexivity|exact P|reflexivity|exact F1|exact S1|exact Hc|]. intros e0 y _. right. unfold binding. now rewrite He.
  - eapply bind_good; eauto.
  - eapply rest_good; eauto.
  - (* FCallCC *) intros [= <-]. eapply good_more; [apply (Gp (CApp1 v (MCont (length (m_conts s))))); auto; split; [exact V|exact Logic.I]|reflexivity..|].
    cbn [m_conts m_guards go]. intros W' X I1. split; [|exact (i_guards W' _ I1)]. intros j k1 w1. rewrite nth_snoc. destruct (Nat.eqb _ _).
    + intros [= <- <-]. eapply foks_ext; eauto.
    + intro Z. eapply (i_conts W' _ I1); eauto.
  - (* FContArg *) intro A. apply (dynthrow_good W s k0 v [FContArg k0] k s' H K); auto. intros g [<-|[]]. reflexivity.
  - (* FWind1 *) intros [= <-]. apply Gs; auto. split; auto.
  - (* FWind2 *) destruct F1 as (F1 & F3). intros [= <-]. apply Gs; auto. split; auto.
  - (* FWind3 *) destruct F1 as (F1 & F3 & F4). unfold ret_step. destruct (_ && _ && _); [|apply Ge; auto]. intros [= <-]. apply Gs; auto; [split; auto|]. split; auto.
  - (* FWindIn *) destruct F1 as (F1 & F3 & F4 & F5). intros [= <-].
    eapply good_more; [apply (Gs (CApp e t []) (FWindThunk e o (m_wind s))); auto; split; auto|reflexivity..|].
    cbn [m_conts m_guards go]. intros W' X I1. split; [exact (i_conts W' _ I1)|]. apply Forall_app. split; [exact (i_guards W' _ I1)|].
    constructor; auto. split; eapply vok_ext; eauto.
  - (* FWindThunk *) destruct F1 as (F1 & F3). intros [= <-]. eapply good_ext; [apply (Gs (CApp e o []) (FWindOut v)); auto; split; auto|reflexivity..].
  - (* FWindOut *) intros [= <-]. apply Gp; auto.
  - (* FDynOut *) intros [= <-]. apply Gp; auto.
  - (* FDynIn *) intros [= <-]. eapply good_ext; [apply (Gp (CDynIn k0 v0 ins)); auto|reflexivity..].
  - (* FCatch *) destruct body; intros [= <-].
    + eapply good_ext; [apply (Gp (CRet v)); auto|reflexivity..].
    + apply Gp; auto.
  - (* FMap1 *) unfold ret_step. destruct (is_fun v); [|apply Ge; auto]. intros [= <-]. apply Gs; auto. split; auto.
  - (* FMap2 *) unfold ret_step. destruct v as [[| | | |]|a| | |] eqn:Ev; try (apply Ge; auto; fail);
      (destruct (alloc_iter _ (m_sto s)) as (i, h1) eqn:A; intros [= <-]; eapply mapstart_good; eauto).
  - eapply map3_good; eauto.
  - (* FEach1 *) unfold ret_step. destruct v as [a|a|ps r b pe|p|j]; try (apply Ge; auto; fail).
    + destruct (_ + _) as [|[|n]]; [intros [= <-]; apply Gp; auto; exact Logic.I| |apply Ge; auto]. intros [= <-]. apply Gs; auto. split; auto.
    + destruct (arity p) as [[|[|n]]|]; try (apply Ge; auto; fail); intros [= <-]; apply Gs; auto; split; auto.
  - (* FEach2 *) destruct F1 as (F1 & F3). unfold ret_step. destruct v as [[| | | |]|a| | |]; try (apply Ge; auto; fail); intros [= <-]; apply Gp; auto; split; auto.
  - (* FEach3 *) destruct F1 as (F1 & F3 & F4). intros [= <-]. apply Gp; auto. split; auto.
Qed.

(** ** the loops *)
Lemma inv_fin W s c h' cs es cs2 es2 : inv W s -> own_c (m_sto s) (m_ctrl s) cs es -> own_k (m_sto s) (m_stack s) cs2 es2 -> oc W = cs ++ cs2 -> oe W = es ++ es2 ->
  h_cells h' = h_cells (m_sto s) -> sok W h' -> plain_c c = true -> cok (drop W cs2 es2) c -> inv (drop W cs2 es2) (goh s c (m_stack s) h').
Proof.
  intros H O1 O2 R1 R2 Hc S' P C.
  apply (inv_drop W s c [] [] (m_stack s) h' cs es [] [] cs2 es2 H eq_refl O1 (ok_nil _) O2 R1 R2 Hc S' P C); [constructor|intros f []].
Qed.
Lemma bindloop_good W s ce fe ps r args b s' : inv W s -> m_ctrl s = CBindLoop ce fe ps r args b -> step s = Next s' -> good W s s'.
Proof.
  intros H E. pose proof (i_ctrl W s H) as V. rewrite E in V. cbn in V.
  assert (D : forall c, plain_c c = true -> (forall W', ext W W' -> eok W' fe -> cok W' c) -> good W s (go s c (m_stack s))).
  { intros c P C. pose proof H as [i1 i2 i3 i4 i5 i6 (cs & es & cs' & es' & O1 & O2 & R1 & R2) (i8 & i8') (i9 & i9')]. pose proof O1 as O1'. rewrite E in O1'. destruct O1' as (-> & ->).
    assert (X : ext W (drop W cs' es')). { apply ext_drop; [rewrite R1|rewrite R2]; intros z Z; cbn; auto. }
    assert (Ef : eok (drop W cs' es') fe). { split; cbn; [apply i9'; rewrite R2; left; auto|]. rewrite R2 in i8'. inversion i8'; auto. }
    exists (drop W cs' es'). split; auto. split; [|now apply quiet_same].
    rewrite go_goh. eapply inv_fin; eauto. }
  unfold step. rewrite E. destruct ps as [|p ps], args as [|a args].
  - intros [= <-]. apply D; auto.
  - destruct r; intros [= <-]; apply D; auto. intros. constructor.
  - destruct r; intros [= <-]; apply D; auto. intros. constructor.
  - intros [= <-]. apply good_go; auto.
    + constructor; auto. apply (i_stack W s H).
    + intros cs es cs' es' O1 O2. rewrite E in O1. destruct O1 as (-> & ->). exists [], [], ([] ++ cs'), ([fe] ++ es'). sp; auto; [now apply plain_own|]. constructor; auto. split; auto.
Qed.
Lemma restloop_good W s ce fe y head tail args b s' : inv W s -> m_ctrl s = CRestLoop ce fe y head tail args b -> step s = Next s' -> good W s s'.
Proof.
  intros H E. pose proof (i_ctrl W s H) as V. rewrite E in V. cbn in V. unfold step. rewrite E. destruct args as [|a args]; intros [= <-].
  - pose proof H as [i1 i2 i3 i4 i5 i6 (cs & es & cs' & es' & O1 & O2 & R1 & R2) (i8 & i8') (i9 & i9')]. pose proof O1 as O1'. rewrite E in O1'. destruct O1' as (B & ->).
    assert (X : ext W (drop W cs' es')). { apply ext_drop; [rewrite R1|rewrite R2]; intros z Z; apply in_or_app; auto. }
    assert (Ef : eok (drop W cs' es') fe). { split; cbn; [apply i9'; rewrite R2; left; auto|]. rewrite R2 in i8'. inversion i8'; auto. }
    assert (Vh : vok (drop W cs' es') (as_list head)).
    { destruct head as [a|]; [|exact Logic.I]. assert (Z : In a cs) by (apply (proj1 B); reflexivity). split; cbn; [apply i9; rewrite R1; apply in_or_app; auto|]. rewrite R1 in i8. eapply nodup_app_l; eauto. }
    assert (G : inv (drop W cs' es') (goh s (CBody fe b) (m_stack s) (m_sto s))) by (eapply inv_fin; eauto).
    exists (drop W cs' es'). split; auto. split.
    + apply (inv_h _ (drop W cs' es') _ (CBody fe b) [] [] (m_stack s) (env_put fe y (as_list head) (m_sto s)) G); auto using ext_refl; try (intros f []).
      * apply sok_put; auto. apply (i_sto _ _ G).
      * apply kept_put.
    + apply quiet_kept; cbn [m_sto goh]; [apply kept_put|]. intros e x (_ & Z). apply put_binding. left. intros ->. apply Z. rewrite R2. left. auto.
  - apply good_go; auto.
    + constructor; auto. apply (i_stack W s H).
    + intros cs es cs' es' O1 O2. rewrite E in O1. destruct O1 as (B & ->). exists [], [], (cs ++ cs'), ([fe] ++ es'). sp; auto; [now apply plain_own|]. constructor; auto. split; auto.
Qed.
Lemma maploop_good W s e f i head tail s' : inv W s -> m_ctrl s = CMapLoop e f i head tail -> step s = Next s' -> good W s s'.
Proof.
  intros H E. pose proof (i_ctrl W s H) as V. rewrite E in V. cbn in V. destruct V as (Ve & Vf). unfold step. rewrite E.
  pose proof H as [i1 i2 i3 i4 i5 i6 (cs & es & cs' & es' & O1 & O2 & R1 & R2) (i8 & i8') (i9 & i9')]. pose proof O1 as O1'. rewrite E in O1'. destruct O1' as (B & ->). cbn [app] in R2.
  destruct (nth_error (h_iters (m_sto s)) i) as [[[a|]|]|] eqn:Ei; try discriminate.
  - destruct (get_cell (m_sto s) a) as [c|] eqn:G; [|discriminate]. intros [= <-].
    assert (A : aok W a) by exact (s_iters W _ i1 i _ Ei).
    assert (N : pok W (c_next c)). { destruct (c_next c) as [b|] eqn:N; [|exact Logic.I]. exact (s_next W _ i1 a c b G A N). }
    exists W. split; [apply ext_refl|]. split.
    + apply (inv_build W); auto using ext_refl.
      * apply sok_iter; auto. intros q [= <-]. auto.
      * split; auto. eapply s_data; eauto.
      * constructor; auto. split; auto.
      * exists [], [], (cs ++ cs'), ([] ++ es'). sp; [split; reflexivity| |exact R1|exact R2]. constructor; [split; [exact B|reflexivity]|].
        eapply own_k_kept; [|exact O2]. intros zz _. reflexivity.
    + apply quiet_kept; [intros zz _|intros zz z1 _]; reflexivity.
  - intros [= <-].
    assert (X : ext W (drop W cs' es')). { apply ext_drop; [rewrite R1|rewrite R2]; intros z Z; auto; apply in_or_app; auto. }
    assert (Vh : vok (drop W cs' es') (as_list head)).
    { destruct head as [a|]; [|exact Logic.I]. assert (Z : In a cs) by (apply (proj1 B); reflexivity). split; cbn; [apply i9; rewrite R1; apply in_or_app; auto|]. rewrite R1 in i8. eapply nodup_app_l; eauto. }
    exists (drop W cs' es'). split; auto. split; [|apply quiet_kept; [intros zz _|intros zz z1 _]; reflexivity].
    eapply inv_fin; eauto.
    apply sok_iter; auto. discriminate.
Qed.
Lemma step_good W s s' : inv W s -> safe_arrival s -> step s = Next s' -> good W s s'.
Proof.
  intros H SA E. destruct (m_ctrl s) eqn:C; pose proof (i_ctrl W s H) as V; rewrite C in V; cbn in V.
  - (* CEval *) assert (P : plain_c (m_ctrl s) = true) by now rewrite C. unfold step in E. rewrite C in E.
    assert (Ge : forall s', errork s (m_stack s) = Next s' -> good W s s') by (unfold errork; intros s1 [= <-]; apply good_keep; auto; constructor).
    destruct x; cbn [eval_step] in E; try (injection E as <-; first [apply good_keep|apply good_push]; auto; cbn; auto; fail).
    + destruct (env_get (m_sto s) e x) as [v|] eqn:Q; [|now apply Ge]. injection E as <-. apply good_keep; auto. eapply get_ok; eauto. apply (i_sto W s H).
    + destruct es as [|x r]; injection E as <-; apply good_keep; auto; cbn; auto.
  - unfold step in E. rewrite C in E. destruct (m_stack s) as [|f k] eqn:K; [discriminate|]. eapply ret_good; eauto.
  - unfold step in E. rewrite C in E. destruct es as [|x r]; [discriminate|]. injection E as <-. apply good_push; auto; rewrite ?C; auto.
  - unfold step in E. rewrite C in E. eapply app_good; eauto.
  - eapply bindloop_good; eauto.
  - eapply restloop_good; eauto.
  - unfold step in E. rewrite C in E. assert (P : plain_c (m_ctrl s) = true) by now rewrite C. destruct rest as [|a r]; injection E as <-; [apply good_keep|apply good_push]; auto.
    apply walk_ok. apply (s_args W _ (i_sto W s H)).
  - unfold step in E. rewrite C in E. eapply func_good; eauto.
  - unfold step in E. rewrite C in E. destruct V as (V1 & V2). apply (vals_good W s f [v] false s'); auto. now rewrite C.
  - unfold step in E. rewrite C in E. destruct V as (V1 & V2). apply (vals_good W s f vs true s'); auto. now rewrite C.
  - unfold step in E. rewrite C in E. eapply throw_good; eauto.
  - (* CDynOut *) assert (P : plain_c (m_ctrl s) = true) by now rewrite C. unfold step in E. rewrite C in E. destruct outs as [|i r].
    + destruct (nth_error (m_conts s) k) as [[k1 w]|]; [|discriminate]. injection E as <-. eapply good_ext; [apply (good_keep W s (CDynIn k v (rev (skipn (length common) w)))); auto|reflexivity..].
    + injection E as <-. apply good_push; auto. split; [apply (i_g W s H)|]. unfold out_guard.
      destruct (nth_error (m_guards s) i) as [[[ga gb] gc]|] eqn:G; [|exact Logic.I]. apply nth_error_In in G. pose proof (i_guards W s H) as Z. rewrite Forall_forall in Z. apply (Z _ G).
  - (* CDynIn *) assert (P : plain_c (m_ctrl s) = true) by now rewrite C. unfold step in E. rewrite C in E. destruct ins as [|i r].
    + injection E as <-. apply good_keep; auto.
    + injection E as <-. apply good_push; auto. split; [apply (i_g W s H)|]. unfold in_guard.
      destruct (nth_error (m_guards s) i) as [[[ga gb] gc]|] eqn:G; [|exact Logic.I]. apply nth_error_In in G. pose proof (i_guards W s H) as Z. rewrite Forall_forall in Z. apply (Z _ G).
  - eapply jump_good; eauto.
  - eapply maploop_good; eauto.
  - (* CEachLoop *) assert (P : plain_c (m_ctrl s) = true) by now rewrite C. destruct V as (V1 & V2 & V3). unfold step in E. rewrite C in E. destruct ptr as [a|].
    + destruct (get_cell (m_sto s) a) as [c|] eqn:G; [|discriminate].
      assert (Vd : vok W (c_data c)) by exact (s_data W _ (i_sto W s H) a c G).
      assert (N : pok W (c_next c)). { destruct (c_next c) as [b|] eqn:N; [|exact Logic.I]. exact (s_next W _ (i_sto W s H) a c b G V3 N). }
      destruct (c_data c) as [[| | | |]| | | |] eqn:Q; injection E as <-; first [apply good_keep; auto; exact Logic.I|apply good_push; auto; cbn [cok fok]; auto].
    + injection E as <-. apply good_keep; auto; exact Logic.I.
Qed.

(** ** the start *)
Definition W0 : world := mkW 0 [] 1 [].
Lemma inv_start prog : inv W0 (start prog).
Proof.
  constructor; cbn.
  - constructor; cbn; auto.
    + intros [|a] c; discriminate.
    + intros [|a] c; discriminate.
    + intros [|[|e]] f x v; cbn; try discriminate. intros [= <-]. cbn. intro Z. repeat (destruct Z as [Z|Z]; [injection Z as _ <-; exact Logic.I|]). destruct Z.
    + intros [|[|e]] f u; cbn; try discriminate. intros [= <-]. discriminate.
    + intros [|i]; discriminate.
  - split; cbn; auto.
  - constructor.
  - intros [|j]; discriminate.
  - constructor.
  - split; cbn; auto.
  - exists [], [], [], []. sp; auto. constructor.
  - split; constructor.
  - split; intros a [].
Qed.
