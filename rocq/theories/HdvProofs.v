(** Proofs for C217. *)
From Coq Require Import String Lia.
From Verif Require Import Base NumModel NumSpec ParseModel ParseSpec PrintModel ParseProperties EnvModel EvalModel EvalMono
  ApiModel LangSpec LangProofs LangProofs2 LangProofs3 DivProofs HoSpec HoText HoProofs HerSpec HerProofs HdvSpec.
From Verif Require EnvProofs.
Local Open Scope string_scope.
Local Open Scope Z_scope.
Local Open Scope list_scope.

Section Conv.
Variable prim : list Z -> list val -> pres.
Variable P : list hfn.
Variable nm : list Z -> Prop.
Variable free : list Z -> Prop.
Hypothesis HN : numeric prim.
Hypothesis NM : forall x, nm x -> name x.
Hypothesis WP : Forall (hwf_fn nm) P.
Hypothesis SP : Forall (fun d => hscoped P free (h_params d) (h_body d)) P.
Notation eval := (eval prim).
Notation step := (step prim).
Notation hwf := (hwf nm).
Notation hbase := (hbase P nm free).
Notation erel := (erel nm).
Notation vrel := (vrel nm).
Notation hevals := (hevals prim P nm free).
Notation hbinds := (hbinds prim P nm free).
Notation rwf := (rwf nm).
Notation hscoped := (hscoped P free).
Notation stray := (stray P).
Notation strays := (strays P).
Notation her := (her P free).
Notation hers := (hers P free).
Notation hev := (hev P).
Notation hevs := (hevs P).

(* the names in the bodies of procedure values *)
Inductive vgood : hval -> Prop :=
| vg_int z : vgood (HI z)
| vg_clo ps b r : hscoped (ps ++ map fst r) b -> rgood r -> vgood (HClo ps b r)
with rgood : list (list Z * hval) -> Prop :=
| rg_nil : rgood []
| rg_cons x v r : vgood v -> rgood r -> rgood ((x, v) :: r).
Lemma rgood_look r x v : rgood r -> hlook r x = Some v -> vgood v.
Proof. induction 1 as [|y u r V _ IH]; cbn; [discriminate|]. destruct (list_eq_dec Z.eq_dec y x); [intros [= <-]; auto|auto]. Qed.
Lemma rgood_app a b : rgood a -> rgood b -> rgood (a ++ b).
Proof. induction 1; cbn; auto. constructor; auto. Qed.
Lemma rgood_combine ps vs : Forall vgood vs -> rgood (combine ps vs).
Proof. intros F. revert ps. induction F; intros [|p ps]; cbn; constructor; auto. Qed.
Lemma fst_app ps vs (r : list (list Z * hval)) : length vs = length ps -> map fst (combine ps vs ++ r) = ps ++ map fst r.
Proof. intros L. rewrite map_app. now rewrite combine_fst. Qed.
Lemma hev_good :
  (forall r e v, hev r e v -> hscoped (map fst r) e -> rgood r -> vgood v) /\
  (forall r es vs, hevs r es vs -> Forall (hscoped (map fst r)) es -> rgood r -> Forall vgood vs).
Proof.
  apply hev_hevs_min.
  - constructor.
  - intros r x v L _ R. eapply rgood_look; eauto.
  - intros r d L I _ R. rewrite Forall_forall in SP. constructor; [|constructor]. cbn [map]. rewrite app_nil_r. now apply SP.
  - constructor.
  - intros r c a b t f x y v _ _ _ _ _ IH W R. inversion W; subst. apply IH; auto. now destruct (holds c x y).
  - intros r x a b w v _ IHa _ IHb W R. inversion W; subst. apply IHb; auto. constructor; auto.
  - intros r ps b W R. inversion W; subst. now constructor.
  - intros r f args ps b r' vs v _ IHf _ IHs L _ IHb W R. inversion W; subst.
    assert (V : vgood (HClo ps b r')) by auto. inversion V; subst. apply IHb.
    + now rewrite fst_app.
    + apply rgood_app; auto. apply rgood_combine. auto.
  - constructor.
  - intros r a l v vs _ IHa _ IHl W R. inversion W; subst. constructor; auto.
Qed.
Lemma hlook_in (r : list (list Z * hval)) x : hlook r x = None -> ~ In x (map fst r).
Proof.
  induction r as [|[y z] r IH]; cbn; [intros _ []|]. destruct (list_eq_dec Z.eq_dec y x); [discriminate|]. intros L [?|I]; [contradiction|].
  now apply IH.
Qed.
Lemma down n m ce x st o : (n <= m)%nat -> eval n ce x st <> OFuel -> eval m ce x st = o -> eval n ce x st = o.
Proof. intros L F <-. destruct (eval_mono prim n m ce x L st) as [? | ->]; [contradiction|reflexivity]. Qed.
Definition known (r : list (list Z * hval)) (e : hexp) : Prop := (exists v, hev r e v) \/ her r e \/ stray r e.
Definition conv (n : nat) : Prop := forall r e st ce (D : nat -> Prop), hbase st -> (forall i, D i -> all st i) -> erel D st r ce ->
  hwf e -> rwf r -> hscoped (map fst r) e -> rgood r -> eval n ce (hcode e) st <> OFuel -> known r e.

Lemma hev_evals r e v : hev r e v -> hwf e -> rwf r -> hevals r e v.
Proof. apply (hfollows prim P nm free HN NM WP). Qed.
Lemma hev_got n r e v st ce (D : nat -> Prop) : hev r e v -> hwf e -> rwf r -> hbase st -> (forall i, D i -> all st i) -> erel D st r ce ->
  eval n ce (hcode e) st <> OFuel ->
  exists s1 w, ext st s1 /\ vrel (more D st s1) s1 v w /\ eval n ce (hcode e) st = Ret w s1 /\ hbase s1 /\
    (forall i, more D st s1 i -> all s1 i) /\ erel (more D st s1) s1 r ce.
Proof.
  intros E W R B HD O F. destruct (hev_evals r e v E W R st ce D B HD O) as (s1 & w & E1 & V1 & N & H). exists s1, w.
  split; [exact E1|]. split; [exact V1|]. split; [|split; [|split]].
  - apply (down n (N + n)); [lia|exact F|]. apply H. lia.
  - exact (hbase_ext _ _ _ _ _ E1 B).
  - intros i. now apply more_all.
  - refine (erel_keep nm D _ st s1 _ _ _ _ O); [now left|now apply (ext_keep P nm free)].
Qed.

Lemma conv_two n r a b st ce (D : nat -> Prop) : conv n -> hbase st -> (forall i, D i -> all st i) -> erel D st r ce -> hwf a -> hwf b -> rwf r ->
  hscoped (map fst r) a -> hscoped (map fst r) b -> rgood r ->
  eval_args (eval n) ce [hcode a; hcode b] st <> OFuel ->
  (her r a \/ stray r a) \/ exists v, hev r a v /\ known r b.
Proof.
  intros C B HD O Wa Wb R Sa Sb G F. cbn [eval_args] in F. pose proof (bind_fuel _ _ _ F) as Fa.
  destruct (C r a st ce D B HD O Wa R Sa G Fa) as [(v & Ea)|X]; [|now left]. right. exists v. split; [exact Ea|].
  destruct (hev_got n r a v st ce D Ea Wa R B HD O Fa) as (s1 & w & E1 & V1 & Q & B1 & D1 & O1). rewrite (ret_bind _ _ _ _ _ Q) in F.
  pose proof (bind_fuel _ _ _ F) as Fb. apply bind_fuel in Fb.
  exact (C r b s1 ce _ B1 D1 O1 Wb R Sb G Fb).
Qed.
Lemma int_dec v : (exists x, v = HI x) \/ ~ (exists x, v = HI x).
Proof. destruct v; [left; eauto|right; intros (x & Q); discriminate Q]. Qed.
Lemma conv_bin n r o a b st ce (D : nat -> Prop) : (forall m, (m <= n)%nat -> conv m) -> hbase st -> (forall i, D i -> all st i) -> erel D st r ce ->
  hwf a -> hwf b -> rwf r -> hscoped (map fst r) a -> hscoped (map fst r) b -> rgood r ->
  eval (S n) ce (hcode (HBin o a b)) st <> OFuel -> known r (HBin o a b).
Proof.
  intros C B HD O Wa Wb R Sa Sb G F. cbn [hcode] in F.
  assert (NL : hlook r (op_name o) = None) by (eapply erel_names; eauto; apply not_op).
  destruct (h_found _ _ _ _ _ _ _ _ _ B O NL (hb_op _ _ _ _ B o) eq_refl) as (H1 & H2).
  rewrite eval_S, (step_call prim n n ce (op_name o) _ _ _ (op_form o) H1 H2 eq_refl) in F.
  destruct n as [|n]; [now elim F|]. rewrite eval_S, step_op in F. apply bind_fuel in F.
  destruct (conv_two n r a b st ce D (C n ltac:(lia)) B HD O Wa Wb R Sa Sb G F) as [[X|X]|(v & X & [(w & Y)|[Y|Y]])].
  - right; left. now apply her_left.
  - right; right. now apply sy_left.
  - destruct (int_dec v) as [(x & ->)|Nv].
    2:{ right; right. eapply sy_arith; eauto. intros (Q & _). auto. }
    destruct (int_dec w) as [(y & ->)|Nw].
    2:{ right; right. eapply sy_arith; eauto. intros (_ & Q). auto. }
    assert (OK : (divides o -> y <> 0) -> known r (HBin o a b)).
    { intros Dv. destruct (Z_lt_dec (Z.abs (arith o x y)) (2 ^ 63)).
      - left. eexists. eapply hev_bin; eauto.
      - right; right. eapply sy_big; eauto. }
    destruct (Z.eq_dec y 0) as [->|NZ]; [|auto].
    destruct (match o with OQuo | ORem | OMod => true | _ => false end) eqn:Q.
    + right; left. eapply her_zero; eauto. unfold divides. destruct o; try discriminate; tauto.
    + apply OK. intros [->|[->| ->]]; discriminate.
  - right; left. eapply her_right; eauto.
  - right; right. eapply sy_right; eauto.
Qed.
Lemma test_got n r c a b x y st ce (D : nat -> Prop) : hevals r a (HI x) -> hevals r b (HI y) -> hbase st -> (forall i, D i -> all st i) -> erel D st r ce ->
  eval n ce (VList [VSym (rel_name c); hcode a; hcode b] false) st <> OFuel ->
  exists s1, ext st s1 /\ eval n ce (VList [VSym (rel_name c); hcode a; hcode b] false) st = Ret (VBool (holds c x y)) s1.
Proof.
  intros Ha Hb B HD O F. destruct (hevals_two _ _ _ _ r a b x y st ce D Ha Hb B HD O) as (s2 & N & E2 & R). exists s2. split; [exact E2|].
  assert (NL : hlook r (rel_name c) = None) by (eapply erel_names; eauto; apply not_rel).
  destruct (h_found _ _ _ _ _ _ _ _ _ B O NL (hb_rel _ _ _ _ B c) eq_refl) as (H1 & H2).
  apply (down n (S (S (N + n)))); [lia|exact F|].
  rewrite eval_S, (step_call prim (S (N + n)) (S (N + n)) ce (rel_name c) _ _ _ (rel_form c) H1 H2 eq_refl), eval_S, step_rel,
    (ret_bind _ _ _ _ _ (R (N + n)%nat ltac:(lia))), call_rel, (n_rel _ HN _ _ _ _ (num_rel_ok c x y)). now rewrite emit_nil.
Qed.
Lemma conv_if n r c a b t f st ce (D : nat -> Prop) : (forall m, (m <= n)%nat -> conv m) -> hbase st -> (forall i, D i -> all st i) -> erel D st r ce ->
  hwf (HIf c a b t f) -> rwf r -> hscoped (map fst r) (HIf c a b t f) -> rgood r ->
  eval (S n) ce (hcode (HIf c a b t f)) st <> OFuel -> known r (HIf c a b t f).
Proof.
  intros C B HD O W R Sc G F. inversion W as [| | |? ? ? ? ? Wa Wb Wt Wf| | |]; subst. inversion Sc as [| | |? ? ? ? ? ? Sa Sb St Sf| | |]; subst.
  cbn [hcode] in F.
  assert (NI : hlook r (bs "if") = None) by (eapply erel_names; eauto; apply not_key; apply in_map; cbn; tauto).
  assert (PI : forall u, head_value st ce (bs "if") = Some u -> is_macro u = false).
  { apply (h_plain P nm free D st ce r); auto. intros u. apply (hb_key _ _ _ _ B). cbn. tauto. }
  rewrite eval_S in F. unfold sym in F. rewrite (step_form prim n n ce (bs "if") FIf _ _ _ PI eq_refl) in F. cbn [special] in F. unfold do_if in F.
  assert (NL : hlook r (rel_name c) = None) by (eapply erel_names; eauto; apply not_rel).
  destruct (h_found _ _ _ _ _ _ _ _ _ B O NL (hb_rel _ _ _ _ B c) eq_refl) as (H1 & H2).
  pose proof (bind_fuel _ _ _ F) as Ft. pose proof Ft as Ft0. destruct n as [|n]; [now elim Ft|].
  rewrite eval_S, (step_call prim n n ce (rel_name c) _ _ _ (rel_form c) H1 H2 eq_refl) in Ft.
  destruct n as [|n]; [now elim Ft|]. rewrite eval_S, step_rel in Ft. apply bind_fuel in Ft.
  destruct (conv_two n r a b st ce D (C n ltac:(lia)) B HD O Wa Wb R Sa Sb G Ft) as [[X|X]|(v & X & [(w & Y)|[Y|Y]])].
  - right; left. now apply her_if_left.
  - right; right. now apply sy_test_left.
  - destruct (int_dec v) as [(x & ->)|Nv].
    2:{ right; right. eapply sy_compare; eauto. intros (Q & _). auto. }
    destruct (int_dec w) as [(y & ->)|Nw].
    2:{ right; right. eapply sy_compare; eauto. intros (_ & Q). auto. }
    destruct (test_got (S (S n)) r c a b x y st ce D (hev_evals _ _ _ X Wa R) (hev_evals _ _ _ Y Wb R) B HD O Ft0) as (s1 & E1 & Q).
    rewrite (ret_bind _ _ _ _ _ Q) in F. cbn [truthy] in F.
    assert (Wr : hwf (if holds c x y then t else f)) by (now destruct (holds c x y)).
    assert (Sr : hscoped (map fst r) (if holds c x y then t else f)) by (now destruct (holds c x y)).
    assert (Fr : eval (S (S n)) ce (hcode (if holds c x y then t else f)) s1 <> OFuel) by (now destruct (holds c x y)).
    destruct (C (S (S n)) ltac:(lia) r _ s1 ce D (hbase_ext _ _ _ _ _ E1 B) (ext_all _ _ _ E1 HD) (ext_erel _ _ _ _ _ _ _ _ B E1 HD O) Wr R Sr G Fr)
      as [(w & Ew)|[Y1|Y1]].
    + left. exists w. eapply hev_if; eauto.
    + right; left. eapply her_if; eauto.
    + right; right. eapply sy_branch; eauto.
  - right; left. eapply her_if_right; eauto.
  - right; right. eapply sy_test_right; eauto.
Qed.

(* binding parameters to operands *)
Definition knowns (r : list (list Z * hval)) (es : list hexp) : Prop := (exists vs, hevs r es vs) \/ hers r es \/ strays r es.
Lemma conv_binds n : conv n -> forall r es, Forall hwf es -> rwf r -> Forall (hscoped (map fst r)) es -> rgood r ->
  forall ps st ce fe K c (D : nat -> Prop) ps2 args2, length ps = length es -> NoDup ps -> hbase st -> (forall i, D i -> but K st i) -> erel D st r ce ->
  e_chain fe = K :: c -> (0 < K < length (s_frames st))%nat ->
  bind_loop (eval n) ce fe false (map VSym ps ++ ps2) (map hcode es ++ args2) st <> OFuel -> knowns r es.
Proof.
  intros C r es. induction es as [|e es IH]; intros W R Sc G ps st ce fe K c D ps2 args2 Hl ND0 B HD O E HK F.
  - left. exists []. constructor.
  - destruct ps as [|p ps]; [discriminate|]. inversion W as [|? ? We Ws]; subst. inversion Sc as [|? ? Se Ss]; subst.
    cbn [map app bind_loop is_sym] in F. pose proof (bind_fuel _ _ _ F) as Fe.
    destruct (C r e st ce D B (fun i I => proj1 (HD i I)) O We R Se G Fe) as [(v & Ee)|[X|X]].
    + destruct (bound_one prim P nm free r e v p ps st ce fe K c D (hev_evals _ _ _ Ee We R) ND0 B HD O E HK)
        as (N1 & s2 & w & S2 & B2 & D2 & O2 & K2 & H2).
      destruct (H2 (N1 + n)%nat ltac:(lia)) as (s1 & Q1 & I1). apply (down n) in Q1; [|lia|exact Fe].
      rewrite (ret_bind _ _ _ _ _ Q1), (ret_bind _ _ _ _ _ I1) in F. inversion ND0; subst.
      assert (Hl' : length ps = length es) by (now injection Hl).
      destruct (IH Ws R Ss G ps s2 ce fe K c D ps2 args2 Hl' ltac:(assumption) B2 D2 O2 E K2 F) as [(vs & Ev)|[X|X]].
      * left. exists (v :: vs). now constructor.
      * right; left. eapply hers_tail; eauto.
      * right; right. eapply sys_tail; eauto.
    + right; left. now apply hers_head.
    + right; right. now apply sys_head.
Qed.
(* a procedure entered: what its body sees *)
Lemma entered pe r0 r ps vs es st ce (D : nat -> Prop) : hbase st -> (forall i, D i -> all st i) -> erel D st r ce -> erel D st r0 pe ->
  length ps = length es -> NoDup ps -> Forall nm ps -> hbinds r es vs ->
  exists N st1 s2 fe (D2 : nat -> Prop), alloc_frame pe st = Ret fe st1 /\ hbase s2 /\ (forall i, D2 i -> all s2 i) /\
    erel D2 s2 (combine ps vs ++ r0) fe /\
    forall n, (N <= n)%nat -> bind_loop (eval n) ce fe false (map VSym ps) (map hcode es) st1 = Ret true s2.
Proof.
  intros B HD O Op Hl ND0 Nm Hb. destruct (alloc_ok st pe) as (A & E1 & L1 & Fr).
  set (st1 := mkState (s_frames st ++ [[]]) (s_mods st) (s_cur st) (s_proms st) (s_dyn st)) in *.
  set (fe := mkEnv (length (s_frames st) :: e_chain pe) (e_mod pe)) in *.
  set (K := length (s_frames st)) in *. pose proof (hbase_len _ _ _ _ B) as LK. fold K in LK.
  assert (B1 : hbase st1) by (now apply (hbase_ext P nm free st)).
  destruct (Hb ps st1 ce fe K (e_chain pe) D Hl ND0 B1) as (N2 & s2 & ws & S2 & FR & V2 & F2 & H2); auto.
  { intros i I. specialize (HD i I). unfold all, but in *. lia. }
  { now apply (ext_erel P nm free D st). }
  { lia. }
  pose proof (same_length _ _ _ S2) as LE2.
  assert (S02 : ext st s2) by (apply same_trans with st1; auto).
  assert (B2 : hbase s2) by (now apply (hbase_ext P nm free st)).
  assert (FRS : forall i, (i < K)%nat -> frame_at s2 i = frame_at st i) by (intros i Hi; now apply ext_frames).
  set (D2 := more D st s2).
  assert (V2' : Forall2 (vrel D2 s2) vs ws).
  { refine (Forall2_impl _ _ _ _ _ V2). intros x y. apply vrel_keep; [|auto]. unfold D2, more. intros i [I|I]; [now left|right; lia]. }
  assert (Op2 : erel D2 s2 r0 pe).
  { refine (erel_keep nm D _ st _ _ _ _ _ Op).
    - intros i I. now left.
    - intros i [I| ->]; apply FRS; [apply (HD i I)|lia]. }
  exists N2, st1, s2, fe, D2. split; [exact A|]. split; [exact B2|]. split; [|split; [|exact H2]].
  { unfold D2, more, all. intros i [I|I]; [specialize (HD i I); unfold all in HD; lia|lia]. }
  inversion Op2 as [W ? ? M C F Nn V]; subst.
  apply er_intro with (W := fun x => match wlook (combine ps ws) x with Some w => w | None => W x end).
  - exact M.
  - unfold fe. cbn [e_chain]. constructor; [left; right; lia|exact C].
  - intros x. unfold fe. cbn [e_chain search_chain]. rewrite F2, Fr, hlook_app.
    pose proof (look_both _ ps vs ws x V2') as LB. destruct (hlook (combine ps vs) x) as [u|].
    + destruct LB as (_ & w & -> & _). reflexivity.
    + rewrite LB. cbn [assoc]. rewrite F. reflexivity.
  - intros x u. rewrite hlook_app. pose proof (look_both _ ps vs ws x V2') as LB. destruct (hlook (combine ps vs) x) as [u'|].
    + intros _. rewrite Forall_forall in Nm. now apply Nm.
    + apply Nn.
  - intros x u. rewrite hlook_app. pose proof (look_both _ ps vs ws x V2') as LB. destruct (hlook (combine ps vs) x) as [u'|].
    + intros [= <-]. destruct LB as (_ & w & -> & Vw). exact Vw.
    + rewrite LB. apply V.
Qed.
Lemma conv_enter n pe r0 r ps vs es body st ce (D : nat -> Prop) : conv n -> hbase st -> (forall i, D i -> all st i) -> erel D st r ce -> erel D st r0 pe ->
  length ps = length es -> NoDup ps -> Forall nm ps -> Forall hwf es -> rwf r -> hevs r es vs -> hwf body ->
  rwf (combine ps vs ++ r0) -> rgood (combine ps vs ++ r0) -> hscoped (map fst (combine ps vs ++ r0)) body ->
  apply_proc (eval n) ce (map VSym ps) false [hcode body] pe (map hcode es) st <> OFuel -> known (combine ps vs ++ r0) body.
Proof.
  intros C B HD O Op Hl ND0 Nm We R Es Wb Rb Gb Sb F.
  destruct (entered pe r0 r ps vs es st ce D B HD O Op Hl ND0 Nm (proj2 (hfollows prim P nm free HN NM WP) r es vs Es We R))
    as (N & st1 & s2 & fe & D2 & A & B2 & HD2 & O2 & H2).
  unfold apply_proc in F. rewrite (ret_bind _ _ _ _ _ A) in F. cbn [has_rest andb] in F. cbn zeta in F.
  pose proof (bind_fuel _ _ _ F) as Fb.
  assert (Q : bind_loop (eval n) ce fe false (map VSym ps) (map hcode es) st1 = Ret true s2).
  { rewrite <- (H2 (N + n)%nat ltac:(lia)).
    destruct (m_bind (eval n) (eval (N + n)%nat) (fun e x => eval_mono prim n (N + n)%nat e x ltac:(lia)) ce fe false (map VSym ps) (map hcode es) st1) as [X|X];
      [contradiction|now rewrite X]. }
  rewrite (ret_bind _ _ _ _ _ Q) in F. cbn [eval_body] in F.
  exact (C _ body s2 fe D2 B2 HD2 O2 Wb Rb Sb Gb F).
Qed.
(* the operands, as far as there are parameters *)
Lemma conv_operands n pe r ps args (body : val) st ce (D : nat -> Prop) : conv n -> hbase st -> (forall i, D i -> all st i) -> erel D st r ce ->
  NoDup ps -> Forall hwf args -> rwf r -> Forall (hscoped (map fst r)) args -> rgood r ->
  apply_proc (eval n) ce (map VSym ps) false [body] pe (map hcode args) st <> OFuel -> knowns r (firstn (length ps) args).
Proof.
  intros C B HD O Nd W R Sc G F. destruct (alloc_ok st pe) as (A & E1 & L1 & Fr).
  set (st1 := mkState (s_frames st ++ [[]]) (s_mods st) (s_cur st) (s_proms st) (s_dyn st)) in *.
  set (fe := mkEnv (length (s_frames st) :: e_chain pe) (e_mod pe)) in *.
  pose proof (hbase_len _ _ _ _ B) as LK.
  unfold apply_proc in F. rewrite (ret_bind _ _ _ _ _ A) in F. cbn [has_rest andb] in F. cbn zeta in F. apply bind_fuel in F.
  set (k := length (firstn (length ps) args)).
  assert (LE : (k <= length ps)%nat) by (unfold k; rewrite firstn_length; lia).
  assert (Q1 : map VSym ps = map VSym (firstn k ps) ++ map VSym (skipn k ps)) by (now rewrite <- map_app, firstn_skipn).
  assert (Q2 : map hcode args = map hcode (firstn (length ps) args) ++ map hcode (skipn (length ps) args)) by (now rewrite <- map_app, firstn_skipn).
  rewrite Q1, Q2 in F.
  refine (conv_binds n C r (firstn (length ps) args) _ R _ G (firstn k ps) st1 ce fe (length (s_frames st)) (e_chain pe) D _ _ _ _ _ _ _ eq_refl _ F).
  - now apply forall_firstn.
  - now apply forall_firstn.
  - rewrite firstn_length. fold k. lia.
  - now apply nodup_firstn.
  - now apply (hbase_ext P nm free st).
  - intros i I. specialize (HD i I). unfold all, but in *. lia.
  - now apply (ext_erel P nm free D st).
  - lia.
Qed.

Lemma conv_let n r x a b st ce (D : nat -> Prop) : (forall m, (m <= n)%nat -> conv m) -> hbase st -> (forall i, D i -> all st i) -> erel D st r ce ->
  hwf (HLet x a b) -> rwf r -> hscoped (map fst r) (HLet x a b) -> rgood r ->
  eval (S n) ce (hcode (HLet x a b)) st <> OFuel -> known r (HLet x a b).
Proof.
  intros C B HD O W R Sc G F. inversion W as [| | | |? ? ? Nx Wa Wb| |]; subst. inversion Sc as [| | | |? ? ? ? Sa Sb| |]; subst.
  cbn [hcode] in F.
  assert (NL : hlook r (bs "let") = None) by (eapply erel_names; eauto; apply not_key; apply in_map; cbn; tauto).
  assert (NLa : hlook r (bs "lambda") = None) by (eapply erel_names; eauto; apply not_key; apply in_map; cbn; tauto).
  assert (PL : forall u, head_value st ce (bs "let") = Some u -> is_macro u = false).
  { apply (h_plain P nm free D st ce r); auto. intros u. apply (hb_key _ _ _ _ B). cbn. tauto. }
  assert (PLa : forall u, head_value st ce (bs "lambda") = Some u -> is_macro u = false).
  { apply (h_plain P nm free D st ce r); auto. intros u. apply (hb_key _ _ _ _ B). cbn. tauto. }
  rewrite eval_S in F. unfold sym in F at 1. rewrite (step_form prim n n ce (bs "let") FLet _ _ _ PL eq_refl) in F.
  change (eval n ce (VList [VList [sym "lambda"; VList [VSym x] false; hcode b] false; hcode a] false) st <> OFuel) in F.
  destruct n as [|n]; [now elim F|]. rewrite eval_S in F. cbn [EvalModel.step] in F.
  destruct n as [|n]; [now elim F|].
  assert (LA : eval (S n) ce (VList [sym "lambda"; VList [VSym x] false; hcode b] false) st = Ret (VProc [VSym x] false [hcode b] ce) st).
  { rewrite eval_S. unfold sym. rewrite (step_form prim n n ce (bs "lambda") FLambda) by auto. reflexivity. }
  rewrite (ret_bind _ _ _ _ _ LA) in F.
  change (eval (S n) ce (VList [VProc [VSym x] false [hcode b] ce; hcode a] false) st <> OFuel) in F. rewrite eval_S in F.
  change (apply_proc (eval n) ce (map VSym [x]) false [hcode b] ce (map hcode [a]) st <> OFuel) in F.
  assert (Nd : NoDup [x]) by (repeat constructor; intros []).
  destruct (conv_operands n ce r [x] [a] (hcode b) st ce D (C n ltac:(lia)) B HD O Nd ltac:(auto) R ltac:(auto) G F) as [(vs & Ex)|[Ex|Ex]]; cbn in Ex.
  - inversion Ex as [|? ? ? w ? Ea El]; subst. inversion El; subst.
    assert (Vw : vwf nm w) by (apply (proj1 (hev_wf P nm WP) _ _ _ Ea); auto).
    assert (Vg : vgood w) by (apply (proj1 hev_good _ _ _ Ea); auto).
    destruct (conv_enter n ce r r [x] [w] [a] b st ce D (C n ltac:(lia)) B HD O O eq_refl Nd) as [(v & Ev)|[X|X]]; auto.
    + constructor; auto.
    + constructor; auto.
    + left. exists v. eapply hev_let; eauto.
    + right; left. eapply her_let; eauto.
    + right; right. eapply sy_let; eauto.
  - right; left. apply her_let_left. inversion Ex as [? ? ? X|? ? ? ? ? X]; subst; [exact X|inversion X].
  - right; right. apply sy_bound. inversion Ex as [? ? ? X|? ? ? ? ? X]; subst; [exact X|inversion X].
Qed.
(* the operator has a value *)
Lemma conv_call n r f args v w s1 ce (D : nat -> Prop) : (forall m, (m <= n)%nat -> conv m) -> hbase s1 -> (forall i, D i -> all s1 i) -> erel D s1 r ce ->
  vrel D s1 v w -> hev r f v -> vwf nm v -> vgood v -> Forall hwf args -> rwf r -> Forall (hscoped (map fst r)) args -> rgood r ->
  eval n ce (VList (w :: map hcode args) false) s1 <> OFuel -> known r (HApp f args).
Proof.
  intros C B HD O V Ef Vw Vg W R Sc G F. inversion V as [z Sz|ps b r' pe Np Nd Wb Op]; subst.
  - destruct args; [right; right; eapply sy_int; eauto|]. right; left. eapply her_call_int; eauto. discriminate.
  - destruct n as [|n]; [now elim F|]. rewrite eval_S in F. inversion Vw; subst. inversion Vg as [|? ? ? Sb Gr]; subst.
    change (apply_proc (eval n) ce (map VSym ps) false [hcode b] pe (map hcode args) s1 <> OFuel) in F.
    destruct (conv_operands n pe r ps args (hcode b) s1 ce D (C n ltac:(lia)) B HD O Nd W R Sc G F) as [(vs & Ex)|[Ex|Ex]].
    + destruct (Nat.eq_dec (length args) (length ps)) as [Lk|Lk].
      * rewrite firstn_all2 in Ex by lia. pose proof (hevs_length _ _ _ _ Ex) as Lv.
        destruct (conv_enter n pe r' r ps vs args b s1 ce D (C n ltac:(lia)) B HD O Op (eq_sym Lk) Nd) as [(u & Ev)|[X|X]]; auto.
        -- apply rwf_app; auto. apply rwf_combine. apply (proj2 (hev_wf P nm WP) _ _ _ Ex); auto.
        -- apply rgood_app; auto. apply rgood_combine. apply (proj2 hev_good _ _ _ Ex); auto.
        -- rewrite fst_app by lia. exact Sb.
        -- left. exists u. eapply hev_app; eauto. lia.
        -- right; left. eapply her_body; eauto. lia.
        -- right; right. eapply sy_body; eauto. lia.
      * right; left. eapply her_arity; eauto.
    + right; left. eapply her_operand; eauto.
    + right; right. eapply sy_operand; eauto.
Qed.
Lemma conv_app n r f args st ce (D : nat -> Prop) : (forall m, (m <= n)%nat -> conv m) -> hbase st -> (forall i, D i -> all st i) -> erel D st r ce ->
  hwf (HApp f args) -> rwf r -> hscoped (map fst r) (HApp f args) -> rgood r ->
  eval (S n) ce (hcode (HApp f args)) st <> OFuel -> known r (HApp f args).
Proof.
  intros C B HD O W R Sc G F. inversion W as [| | | | | |? ? Cf Wf Wargs]; subst. inversion Sc as [| | | | | |? ? ? Sf Sargs]; subst.
  cbn [hcode] in F.
  assert (Hd : (exists x, f = HVar x) \/ exists h t d, hcode f = VList (h :: t) d).
  { destruct f; try contradiction; cbn [hcode]; eauto. }
  destruct Hd as [(x & ->)|(h & t & d & Hc)].
  - inversion Wf as [|? Nx| | | | |]; subst. cbn [hcode] in F.
    assert (GO : forall v w, hev r (HVar x) v -> vrel D st v w -> env_search st ce x = Some w -> known r (HApp (HVar x) args)).
    { intros v w Ev Vw Sx. assert (M : is_macro w = false) by (now inversion Vw).
      rewrite eval_S, (step_call prim n n ce x _ _ _ (name_form _ (NM x Nx)) (h_head _ _ _ _ _ _ _ _ _ B O Nx Sx) Sx M) in F.
      apply (conv_call n r (HVar x) args v w st ce D); auto.
      - apply (proj1 (hev_wf P nm WP) _ _ _ Ev); auto.
      - apply (proj1 hev_good _ _ _ Ev); auto. }
    destruct (hlook r x) as [v|] eqn:L.
    + destruct (h_local _ _ _ _ _ _ _ _ _ B O L) as (w & Vw & _ & Sx). apply (GO v w); auto. now constructor.
    + inversion Sf as [|? ? [I|[I|U]]| | | | |]; subst.
      * now elim (hlook_in r x L).
      * apply in_map_iff in I as (d & <- & I). destruct (h_fn _ _ _ _ _ _ _ _ B O I L) as (_ & Sx).
        refine (GO _ _ (hev_global P r d L I) _ Sx).
        assert (WD : hwf_fn nm d) by (rewrite Forall_forall in WP; now apply WP). destruct WD as (_ & Np & Nd & Wb).
        constructor; auto. apply erel_global.
      * right; left. apply her_head. now constructor.
  - rewrite eval_S, Hc in F. cbn [EvalModel.step] in F. rewrite <- Hc in F. pose proof (bind_fuel _ _ _ F) as Ff.
    destruct (C n ltac:(lia) r f st ce D B HD O Wf R Sf G Ff) as [(v & Ev)|[X|X]].
    + destruct (hev_got n r f v st ce D Ev Wf R B HD O Ff) as (s1 & w & E1 & V1 & Q & B1 & D1 & O1).
      rewrite (ret_bind _ _ _ _ _ Q) in F.
      replace (match map hcode args with [] => false | _ :: _ => false end) with false in F by (now destruct (map hcode args)).
      apply (conv_call n r f args v w s1 ce (more D st s1)); auto.
      * apply (proj1 (hev_wf P nm WP) _ _ _ Ev); auto.
      * apply (proj1 hev_good _ _ _ Ev); auto.
    + right; left. now apply her_head.
    + right; right. now apply sy_head.
Qed.
Theorem hconverse : forall n, conv n.
Proof.
  induction n as [n IH] using lt_wf_ind. intros r e st ce D B HD O W R Sc G F. destruct n as [|n]; [now elim F|].
  assert (C : forall m, (m <= n)%nat -> conv m) by (intros; apply IH; lia).
  destruct e.
  - left. eexists. constructor.
  - destruct (hlook r x) as [v|] eqn:E; [left; exists v; now constructor|].
    inversion Sc as [|? ? [I|[I|U]]| | | | |]; subst.
    + now elim (hlook_in r x E).
    + apply in_map_iff in I as (d & <- & I). left. eexists. apply hev_global; eauto.
    + right; left. now constructor.
  - inversion W; subst. inversion Sc; subst. apply (conv_bin n r o e1 e2 st ce D); auto.
  - now apply (conv_if n r r0 e1 e2 e3 e4 st ce D).
  - now apply (conv_let n r x e1 e2 st ce D).
  - left. eexists. constructor.
  - now apply (conv_app n r e args st ce D).
Qed.
End Conv.
