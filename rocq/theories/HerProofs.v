(** Proofs for C216: the errors of programs with procedures as values. *)
From Coq Require Import String Lia.
From Verif Require Import Base NumModel NumSpec NumProperties ParseModel ParseSpec PrintModel ParseProperties EnvModel EvalModel EvalMono
  ApiModel LangSpec LangProofs LangProofs2 HoSpec HoText HoProofs HerSpec.
From Verif Require EnvProofs.
Local Open Scope string_scope.
Local Open Scope Z_scope.
Local Open Scope list_scope.

Section Err.
Variable prim : list Z -> list val -> pres.
Variable P : list hfn.
Variable nm : list Z -> Prop.
Variable free : list Z -> Prop.
Hypothesis HN : numeric prim.
Hypothesis NM : forall x, nm x -> name x.
Hypothesis WP : Forall (hwf_fn nm) P.
Notation eval := (eval prim).
Notation step := (step prim).
Notation hwf := (hwf nm).
Notation hbase := (hbase P nm free).
Notation erel := (erel nm).
Notation vrel := (vrel nm).
Notation hevals := (hevals prim P nm free).
Notation hbinds := (hbinds prim P nm free).
Notation runs := (runs prim).

Definition fails (ce : env) (x : val) (st st' : state) : Prop :=
  exists N, forall n, (N <= n)%nat -> eval n ce x st = err st'.
Definition hfails (r : list (list Z * hval)) (e : hexp) : Prop :=
  forall st ce (D : nat -> Prop), hbase st -> (forall i, D i -> all st i) -> erel D st r ce ->
    exists st', ext st st' /\ fails ce (hcode e) st st'.
Lemma h_unknown D st e r x : hbase st -> erel D st r e -> hlook r x = None -> hunknown P free x ->
  head_value st e x = None /\ env_search st e x = None.
Proof.
  intros B O N (U1 & U2). pose proof (hb_free _ _ _ _ B x U1 U2) as G. pose proof (erel_find _ _ _ _ _ _ O N) as F.
  unfold env_search in G. cbn [g_env] in G. unfold env_exist, search_entry in G. cbn [e_chain e_mod g_env firstn search_chain] in G.
  destruct (assoc x (frame_at st 0)) as [w|] eqn:A; [discriminate|].
  assert (X : env_exist st e x = None).
  { destruct (env_exist st e x) as [w|] eqn:E; [|reflexivity]. apply exist_search in E. congruence. }
  split.
  - unfold head_value. rewrite X, (hb_cur _ _ _ _ B). cbn [Nat.eqb root]. now rewrite A.
  - unfold env_search. rewrite X. unfold search_entry. destruct (search_chain st (e_chain e) x) as [[? ?]|]; [discriminate F|].
    rewrite (erel_mod _ _ _ _ _ O). destruct (mod_search st (s_cur st) x); [exact G|exact A].
Qed.
Lemma hfails_unbound r x : nm x -> hlook r x = None -> hunknown P free x -> hfails r (HVar x).
Proof.
  intros Nx L U st ce D B HD O. exists st. split; [apply ext_refl|]. exists 1%nat. intros [|n] Hn; [lia|]. cbn [hcode].
  rewrite eval_S, step_var by auto. unfold lookup, ebind, gets. now rewrite (proj2 (h_unknown _ _ _ _ _ B O L U)).
Qed.
(* an operand of two: the first stops, or the second does *)
Lemma two_left r a b st ce (D : nat -> Prop) : hfails r a -> hbase st -> (forall i, D i -> all st i) -> erel D st r ce ->
  exists st' N, ext st st' /\ forall n, (N <= n)%nat -> eval_args (eval n) ce [hcode a; hcode b] st = err st'.
Proof.
  intros Ha B HD O. destruct (Ha st ce D B HD O) as (s1 & E1 & N & H). exists s1, N. split; [exact E1|]. intros n Hn.
  cbn [eval_args]. apply err_bind. now apply H.
Qed.
Lemma two_right r a b v st ce (D : nat -> Prop) : hevals r a v -> hfails r b -> hbase st -> (forall i, D i -> all st i) -> erel D st r ce ->
  exists st' N, ext st st' /\ forall n, (N <= n)%nat -> eval_args (eval n) ce [hcode a; hcode b] st = err st'.
Proof.
  intros Ha Hb B HD O. destruct (Ha st ce D B HD O) as (s1 & w1 & E1 & V1 & N1 & R1).
  destruct (Hb s1 ce D (hbase_ext _ _ _ _ _ E1 B) (ext_all _ _ _ E1 HD) (ext_erel _ _ _ _ _ _ _ _ B E1 HD O)) as (s2 & E2 & N2 & R2).
  exists s2, (N1 + N2)%nat. split; [now apply ext_trans with s1|]. intros n Hn. cbn [eval_args].
  rewrite (ret_bind _ _ _ _ _ (R1 n ltac:(lia))). apply err_bind. apply err_bind. apply R2. lia.
Qed.
Lemma op_runs r o a b st ce (D : nat -> Prop) st' N : hbase st -> erel D st r ce -> ext st st' ->
  (forall n, (N <= n)%nat -> ebind (eval_args (eval n) ce [hcode a; hcode b]) (call_func prim (eval n) n (op_name o) (op_arity o)) st = err st') ->
  exists st', ext st st' /\ fails ce (hcode (HBin o a b)) st st'.
Proof.
  intros B O E H. exists st'. split; [exact E|]. exists (S (S N)). intros n Hn. destruct n as [|[|n]]; try lia. cbn [hcode].
  assert (NL : hlook r (op_name o) = None) by (eapply erel_names; eauto; apply not_op).
  destruct (h_found _ _ _ _ _ _ _ _ _ B O NL (hb_op _ _ _ _ B o) eq_refl) as (H1 & H2).
  rewrite eval_S, (step_call prim (S n) (S n) ce (op_name o) _ _ _ (op_form o) H1 H2 eq_refl), eval_S, step_op. apply H. lia.
Qed.
Lemma hfails_zero r o a b x : hevals r a (HI x) -> hevals r b (HI 0) -> divides o -> hfails r (HBin o a b).
Proof.
  intros Ha Hb Dv st ce D B HD O. destruct (hevals_two _ _ _ _ r a b x 0 st ce D Ha Hb B HD O) as (s2 & N & E2 & R).
  apply (op_runs r o a b st ce D s2 N); auto. intros n Hn. rewrite (ret_bind _ _ _ _ _ (R n Hn)), call_op.
  now rewrite (n_err _ HN _ _ _ (num_op_zero o x Dv)).
Qed.
Lemma hfails_left r o a b : hfails r a -> hfails r (HBin o a b).
Proof.
  intros Ha st ce D B HD O. destruct (two_left r a b st ce D Ha B HD O) as (s2 & N & E2 & R).
  apply (op_runs r o a b st ce D s2 N); auto. intros n Hn. now apply err_bind, R.
Qed.
Lemma hfails_right r o a b v : hevals r a v -> hfails r b -> hfails r (HBin o a b).
Proof.
  intros Ha Hb st ce D B HD O. destruct (two_right r a b v st ce D Ha Hb B HD O) as (s2 & N & E2 & R).
  apply (op_runs r o a b st ce D s2 N); auto. intros n Hn. now apply err_bind, R.
Qed.

(* the conditional: its test, then a branch *)
Lemma if_runs r c a b t f st ce (D : nat -> Prop) st' N : hbase st -> erel D st r ce -> ext st st' ->
  (forall n, (N <= n)%nat -> ebind (ebind (eval_args (eval n) ce [hcode a; hcode b]) (call_func prim (eval n) n (rel_name c) (-2)))
      (fun p => if truthy p then eval (S (S n)) ce (hcode t) else eval (S (S n)) ce (hcode f)) st = err st') ->
  exists st', ext st st' /\ fails ce (hcode (HIf c a b t f)) st st'.
Proof.
  intros B O E H. exists st'. split; [exact E|]. exists (3 + N)%nat. intros n Hn. destruct n as [|[|[|n]]]; try lia. cbn [hcode].
  assert (NI : hlook r (bs "if") = None) by (eapply erel_names; eauto; apply not_key; apply in_map; cbn; tauto).
  assert (PI : forall u, head_value st ce (bs "if") = Some u -> is_macro u = false).
  { apply (h_plain P nm free D st ce r); auto. intros u. apply (hb_key _ _ _ _ B). cbn. tauto. }
  assert (NL : hlook r (rel_name c) = None) by (eapply erel_names; eauto; apply not_rel).
  destruct (h_found _ _ _ _ _ _ _ _ _ B O NL (hb_rel _ _ _ _ B c) eq_refl) as (H1 & H2).
  rewrite eval_S. unfold sym. rewrite (step_form prim (S (S n)) (S (S n)) ce (bs "if") FIf) by auto. cbn [special]. unfold do_if.
  unfold ebind at 1. rewrite eval_S, (step_call prim (S n) (S n) ce (rel_name c) _ _ _ (rel_form c) H1 H2 eq_refl), eval_S, step_rel.
  exact (H n ltac:(lia)).
Qed.
Lemma hfails_if_left r c a b t f : hfails r a -> hfails r (HIf c a b t f).
Proof.
  intros Ha st ce D B HD O. destruct (two_left r a b st ce D Ha B HD O) as (s2 & N & E2 & R).
  apply (if_runs r c a b t f st ce D s2 N); auto. intros n Hn. now apply err_bind, err_bind, R.
Qed.
Lemma hfails_if_right r c a b t f v : hevals r a v -> hfails r b -> hfails r (HIf c a b t f).
Proof.
  intros Ha Hb st ce D B HD O. destruct (two_right r a b v st ce D Ha Hb B HD O) as (s2 & N & E2 & R).
  apply (if_runs r c a b t f st ce D s2 N); auto. intros n Hn. now apply err_bind, err_bind, R.
Qed.
Lemma hfails_if r c a b t f x y : hevals r a (HI x) -> hevals r b (HI y) -> hfails r (if holds c x y then t else f) -> hfails r (HIf c a b t f).
Proof.
  intros Ha Hb Hr st ce D B HD O. destruct (hevals_two _ _ _ _ r a b x y st ce D Ha Hb B HD O) as (s2 & N & E2 & R).
  assert (O2 := ext_erel _ _ _ _ _ _ _ _ B E2 HD O). assert (B2 := hbase_ext _ _ _ _ _ E2 B).
  destruct (Hr s2 ce D B2 (ext_all _ _ _ E2 HD) O2) as (s3 & E3 & N3 & R3).
  apply (if_runs r c a b t f st ce D s3 (N + N3)); auto. { now apply ext_trans with s2. }
  intros n Hn. assert (T : ebind (eval_args (eval n) ce [hcode a; hcode b]) (call_func prim (eval n) n (rel_name c) (-2)) st = Ret (VBool (holds c x y)) s2).
  { rewrite (ret_bind _ _ _ _ _ (R n ltac:(lia))), call_rel, (n_rel _ HN _ _ _ _ (num_rel_ok c x y)). now rewrite emit_nil. }
  rewrite (ret_bind _ _ _ _ _ T). cbn [truthy]. specialize (R3 (S (S n)) ltac:(lia)). destruct (holds c x y); exact R3.
Qed.

(** *** calls *)
Definition bfails (r : list (list Z * hval)) (es : list hexp) : Prop :=
  forall ps st ce fe K c (D : nat -> Prop), length ps = length es -> NoDup ps -> hbase st -> (forall i, D i -> but K st i) -> erel D st r ce ->
    e_chain fe = K :: c -> (0 < K < length (s_frames st))%nat ->
    exists N st', same K st st' /\
      forall n, (N <= n)%nat -> forall ps2 args2,
        bind_loop (eval n) ce fe false (map VSym ps ++ ps2) (map hcode es ++ args2) st = err st'.
Lemma bfails_head r a l : hfails r a -> bfails r (a :: l).
Proof.
  intros Ha [|p ps] st ce fe K c D Hl ND0 B HD O E HK; [discriminate|].
  destruct (Ha st ce D B (fun i I => proj1 (HD i I)) O) as (s1 & E1 & N & H1). exists N, s1. split; [apply ext_same; [lia|exact E1]|].
  intros n Hn ps2 args2. cbn [map app bind_loop is_sym]. now apply err_bind, H1.
Qed.
(* one operand bound: the situation of the rest of the loop *)
Lemma bound_one r a v p ps st ce fe K c (D : nat -> Prop) : hevals r a v -> NoDup (p :: ps) -> hbase st -> (forall i, D i -> but K st i) ->
  erel D st r ce -> e_chain fe = K :: c -> (0 < K < length (s_frames st))%nat ->
  exists N s2 w, same K st s2 /\ hbase s2 /\ (forall i, D i -> but K s2 i) /\ erel D s2 r ce /\ (0 < K < length (s_frames s2))%nat /\
    forall n, (N <= n)%nat -> exists s1, eval n ce (hcode a) st = Ret w s1 /\ insert fe p w s1 = Ret tt s2.
Proof.
  intros Ha ND0 B HD O E HK.
  assert (HD0 : forall i, D i -> all st i) by (intros i I; apply (HD i I)).
  destruct (Ha st ce D B HD0 O) as (s1 & w & E1 & V1 & N1 & R1).
  pose proof (same_length _ _ _ E1) as LE1.
  destruct (insert_ok K s1 fe K c p w E ltac:(lia)) as (s2 & I2 & S2 & LE2 & F2).
  pose proof (insert_other s1 fe K c p w E ltac:(lia) s2 I2) as X2.
  assert (S02 : same K st s2). { apply same_trans with s1; [apply ext_same; [lia|exact E1]|exact S2]. }
  assert (FR : forall i, (i < length (s_frames st))%nat -> i <> K -> frame_at s2 i = frame_at st i).
  { intros i Hi Ni. rewrite X2 by assumption. now apply ext_frames. }
  exists N1, s2, w. split; [exact S02|]. split; [apply (hbase_same P nm free K st); auto; lia|]. split; [|split; [|split]].
  - intros i I. destruct (HD i I). unfold but in *. lia.
  - apply (erel_keep nm D D st); auto. intros i [I| ->]; apply FR; try (apply (HD i I)); lia.
  - lia.
  - intros n Hn. exists s1. split; [now apply R1|exact I2].
Qed.
Lemma bfails_tail r a l v : hevals r a v -> bfails r l -> bfails r (a :: l).
Proof.
  intros Ha Hl [|p ps] st ce fe K c D Hlen ND0 B HD O E HK; [discriminate|].
  destruct (bound_one r a v p ps st ce fe K c D Ha ND0 B HD O E HK) as (N1 & s2 & w & S2 & B2 & D2 & O2 & K2 & H2).
  inversion ND0; subst. destruct (Hl ps s2 ce fe K c D) as (N3 & s3 & S3 & R3); auto.
  exists (N1 + N3)%nat, s3. split; [now apply same_trans with s2|]. intros n Hn ps2 args2. cbn [map app bind_loop is_sym].
  destruct (H2 n ltac:(lia)) as (s1 & R1 & I1). rewrite (ret_bind _ _ _ _ _ R1), (ret_bind _ _ _ _ _ I1). apply R3. lia.
Qed.
(* operands bound as far as there are parameters: what is left decides *)
Definition bgoes (r : list (list Z * hval)) (es : list hexp) : Prop :=
  forall ps st ce fe K c (D : nat -> Prop), length ps = length es -> NoDup ps -> hbase st -> (forall i, D i -> but K st i) -> erel D st r ce ->
    e_chain fe = K :: c -> (0 < K < length (s_frames st))%nat ->
    exists N st', same K st st' /\
      forall n, (N <= n)%nat -> forall ps2 args2,
        bind_loop (eval n) ce fe false (map VSym ps ++ ps2) (map hcode es ++ args2) st = bind_loop (eval n) ce fe false ps2 args2 st'.
Lemma bgoes_nil r : bgoes r [].
Proof. intros [|] st ce fe K c D Hl ND0 B HD O E HK; [|discriminate]. exists 0%nat, st. split; [apply same_refl; lia|]. reflexivity. Qed.
Lemma bgoes_cons r a l v : hevals r a v -> bgoes r l -> bgoes r (a :: l).
Proof.
  intros Ha Hl [|p ps] st ce fe K c D Hlen ND0 B HD O E HK; [discriminate|].
  destruct (bound_one r a v p ps st ce fe K c D Ha ND0 B HD O E HK) as (N1 & s2 & w & S2 & B2 & D2 & O2 & K2 & H2).
  inversion ND0; subst. destruct (Hl ps s2 ce fe K c D) as (N3 & s3 & S3 & R3); auto.
  exists (N1 + N3)%nat, s3. split; [now apply same_trans with s2|]. intros n Hn ps2 args2. cbn [map app bind_loop is_sym].
  destruct (H2 n ltac:(lia)) as (s1 & R1 & I1). rewrite (ret_bind _ _ _ _ _ R1), (ret_bind _ _ _ _ _ I1). apply R3. lia.
Qed.
Lemma bgoes_all r es vs : hevs P r es vs -> Forall hwf es -> rwf nm r -> bgoes r es.
Proof.
  intros E. induction E as [r|r a l v vs Ea _ IH]; intros W R; [apply bgoes_nil|]. inversion W; subst. apply (bgoes_cons r a l v); auto.
  apply (proj1 (hfollows prim P nm free HN NM WP)); auto.
Qed.
Lemma henter_fails pe r ps1 ps2 es args2 body st ce (D : nat -> Prop) : hbase st -> (forall i, D i -> all st i) -> erel D st r ce ->
  length ps1 = length es -> NoDup ps1 -> (bfails r es \/ bgoes r es /\ (ps2 = [] <-> args2 <> [])) ->
  exists N st', ext st st' /\
    forall n, (N <= n)%nat -> apply_proc (eval n) ce (map VSym (ps1 ++ ps2)) false [body] pe (map hcode (es ++ args2)) st = err st'.
Proof.
  intros B HD O Hl ND0 Hb. destruct (alloc_ok st pe) as (A & E1 & L1 & Fr).
  set (st1 := mkState (s_frames st ++ [[]]) (s_mods st) (s_cur st) (s_proms st) (s_dyn st)) in *.
  set (fe := mkEnv (length (s_frames st) :: e_chain pe) (e_mod pe)) in *.
  set (K := length (s_frames st)) in *. pose proof (hbase_len _ _ _ _ B) as LK. fold K in LK.
  assert (B1 : hbase st1) by (now apply (hbase_ext P nm free st)).
  assert (HD1 : forall i, D i -> but K st1 i) by (intros i I; specialize (HD i I); unfold all, but in *; lia).
  assert (O1 : erel D st1 r ce) by (now apply (ext_erel P nm free D st)).
  destruct Hb as [Hb|(Hb & Hv)].
  - destruct (Hb ps1 st1 ce fe K (e_chain pe) D Hl ND0 B1 HD1 O1 eq_refl ltac:(lia)) as (N2 & s2 & S2 & H2).
    exists N2, s2. split; [now apply same_trans with st1|]. intros n Hn.
    unfold apply_proc. rewrite (ret_bind _ _ _ _ _ A). cbn [has_rest andb]. cbn zeta. rewrite !map_app. fold fe. now apply err_bind, H2.
  - destruct (Hb ps1 st1 ce fe K (e_chain pe) D Hl ND0 B1 HD1 O1 eq_refl ltac:(lia)) as (N2 & s2 & S2 & H2).
    exists N2, s2. split; [now apply same_trans with st1|]. intros n Hn.
    unfold apply_proc. rewrite (ret_bind _ _ _ _ _ A). cbn [has_rest andb]. cbn zeta. rewrite !map_app. fold fe.
    unfold ebind at 1. rewrite H2 by exact Hn.
    destruct ps2 as [|p ps2], args2 as [|a args2]; cbn [map bind_loop ret].
    + destruct Hv as (Hv & _). now elim (Hv eq_refl).
    + reflexivity.
    + reflexivity.
    + destruct Hv as (_ & Hv). discriminate (Hv ltac:(discriminate)).
Qed.
(* parameters bound, then the body stops *)
Lemma henter_body pe r0 r ps vs es body st ce (D : nat -> Prop) : hbase st -> (forall i, D i -> all st i) -> erel D st r ce -> erel D st r0 pe ->
  length ps = length es -> NoDup ps -> Forall nm ps -> hbinds r es vs -> hfails (combine ps vs ++ r0) body ->
  exists N st', ext st st' /\
    forall n, (N <= n)%nat -> apply_proc (eval n) ce (map VSym ps) false [hcode body] pe (map hcode es) st = err st'.
Proof.
  intros B HD O Op Hl ND0 Nm Hb Hbody. destruct (alloc_ok st pe) as (A & E1 & L1 & Fr).
  set (st1 := mkState (s_frames st ++ [[]]) (s_mods st) (s_cur st) (s_proms st) (s_dyn st)) in *.
  set (fe := mkEnv (length (s_frames st) :: e_chain pe) (e_mod pe)) in *.
  set (K := length (s_frames st)) in *. pose proof (hbase_len _ _ _ _ B) as LK. fold K in LK.
  assert (B1 : hbase st1) by (now apply (hbase_ext P nm free st)).
  destruct (Hb ps st1 ce fe K (e_chain pe) D Hl ND0 B1) as (N2 & s2 & ws & S2 & FR & V2 & F2 & H2); auto.
  { intros i I. specialize (HD i I). unfold all, but in *. lia. }
  { now apply (ext_erel P nm free D st). }
  { lia. }
  pose proof (same_length _ _ _ S2) as LE2.
  assert (S02 : ext st s2) by (apply same_trans with st1; auto).
  assert (B2 : hbase s2) by (now apply (hbase_ext P nm free st)).
  assert (FRS : forall i, (i < K)%nat -> frame_at s2 i = frame_at st i) by (intros i Hi; now apply ext_frames).
  set (D2 := more D st s2).
  assert (KD : ~ D K) by (intros I; specialize (HD K I); unfold all in HD; lia).
  assert (V2' : Forall2 (vrel D2 s2) vs ws).
  { refine (Forall2_impl _ _ _ _ _ V2). intros x y. apply vrel_keep; [|auto]. unfold D2, more. intros i [I|I]; [now left|right; lia]. }
  assert (Op2 : erel D2 s2 r0 pe).
  { refine (erel_keep nm D _ st _ _ _ _ _ Op).
    - intros i I. now left.
    - intros i [I| ->]; apply FRS; [apply (HD i I)|lia]. }
  destruct (Hbody s2 fe D2 B2) as (s3 & E3 & N3 & R3).
  { unfold D2, more, all. intros i [I|I]; [specialize (HD i I); unfold all in HD; lia|lia]. }
  { inversion Op2 as [W ? ? M C F Nn V]; subst.
    apply er_intro with (W := fun x => match wlook (combine ps ws) x with Some w => w | None => W x end).
    - exact M.
    - unfold fe. cbn [e_chain]. constructor; [left; right; lia|exact C].
    - intros x. unfold fe. cbn [e_chain search_chain]. rewrite F2, Fr, hlook_app.
      pose proof (look_both _ ps vs ws x V2') as LB. destruct (hlook (combine ps vs) x) as [u|].
      + destruct LB as (_ & w & -> & _). reflexivity.
      + rewrite LB. cbn [assoc]. rewrite F. reflexivity.
    - intros x u. rewrite hlook_app. pose proof (look_both _ ps vs ws x V2') as LB. destruct (hlook (combine ps vs) x) as [u'|].
      + intros _. rewrite Forall_forall in Nm. now apply Nm.
      + apply Nn.
    - intros x u. rewrite hlook_app. pose proof (look_both _ ps vs ws x V2') as LB. destruct (hlook (combine ps vs) x) as [u'|].
      + intros [= <-]. destruct LB as (_ & w & -> & Vw). exact Vw.
      + rewrite LB. apply V. }
  exists (N2 + N3)%nat, s3. split; [apply same_trans with s2; [exact S02|apply ext_same; [lia|exact E3]]|].
  intros n Hn. unfold apply_proc. rewrite (ret_bind _ _ _ _ _ A). cbn [has_rest andb]. fold fe. cbn zeta.
  rewrite (ret_bind _ _ _ _ _ (H2 n ltac:(lia))). cbn [eval_body]. apply R3. lia.
Qed.

Lemma let_runs r x (a b : hexp) st ce (D : nat -> Prop) N s1 : hbase st -> erel D st r ce ->
  (forall n, (N <= n)%nat -> apply_proc (eval n) ce [VSym x] false [hcode b] ce [hcode a] st = err s1) ->
  fails ce (hcode (HLet x a b)) st s1.
Proof.
  intros B O R1.
  assert (NL : hlook r (bs "let") = None) by (eapply erel_names; eauto; apply not_key; apply in_map; cbn; tauto).
  assert (NLa : hlook r (bs "lambda") = None) by (eapply erel_names; eauto; apply not_key; apply in_map; cbn; tauto).
  assert (PL : forall u, head_value st ce (bs "let") = Some u -> is_macro u = false).
  { apply (h_plain P nm free D st ce r); auto. intros u. apply (hb_key _ _ _ _ B). cbn. tauto. }
  assert (PLa : forall u, head_value st ce (bs "lambda") = Some u -> is_macro u = false).
  { apply (h_plain P nm free D st ce r); auto. intros u. apply (hb_key _ _ _ _ B). cbn. tauto. }
  exists (4 + N)%nat. intros n Hn.
  destruct n as [|n]; [lia|]. cbn [hcode]. rewrite eval_S. unfold sym at 1. rewrite (step_form prim n n ce (bs "let") FLet _ _ _ PL eq_refl).
  change (eval n ce (VList [VList [sym "lambda"; VList [VSym x] false; hcode b] false; hcode a] false) st = err s1).
  destruct n as [|n]; [lia|]. rewrite eval_S. cbn [EvalModel.step]. destruct n as [|n]; [lia|].
  assert (LA : eval (S n) ce (VList [sym "lambda"; VList [VSym x] false; hcode b] false) st = Ret (VProc [VSym x] false [hcode b] ce) st).
  { rewrite eval_S. unfold sym. rewrite (step_form prim n n ce (bs "lambda") FLambda) by auto. reflexivity. }
  rewrite (ret_bind _ _ _ _ _ LA). change (eval (S n) ce (VList [VProc [VSym x] false [hcode b] ce; hcode a] false) st = err s1). rewrite eval_S.
  exact (R1 n ltac:(lia)).
Qed.
Lemma hfails_let_left r x a b : hfails r a -> hfails r (HLet x a b).
Proof.
  intros Ha st ce D B HD O.
  destruct (henter_fails ce r [x] [] [a] [] (hcode b) st ce D B HD O eq_refl) as (N & s1 & E1 & R1).
  { repeat constructor. intros []. }
  { left. now apply bfails_head. }
  exists s1. split; [exact E1|]. exact (let_runs r x a b st ce D N s1 B O R1).
Qed.
Lemma hfails_let r x a b w : nm x -> hevals r a w -> hfails ((x, w) :: r) b -> hfails r (HLet x a b).
Proof.
  intros Nx Ha Hb st ce D B HD O.
  destruct (henter_body ce r r [x] [w] [a] b st ce D B HD O O eq_refl) as (N & s1 & E1 & R1); auto.
  { repeat constructor. intros []. }
  { apply (hbinds_cons _ _ _ _ r a [] w []); auto. apply hbinds_nil. }
  exists s1. split; [exact E1|]. exact (let_runs r x a b st ce D N s1 B O R1).
Qed.

(* a call whose operator has a value goes on with that value *)
Lemma app_runs r f args st ce (D : nat -> Prop) s1 w s2 : hwf f -> callee f -> hbase st -> erel D st r ce ->
  runs ce (hcode f) st w s1 -> is_macro w = false -> fails ce (VList (w :: map hcode args) false) s1 s2 ->
  fails ce (hcode (HApp f args)) st s2.
Proof.
  intros Wf Cf B O (N1 & R1) NMw (N2 & G). exists (3 + N1 + N2)%nat. intros n Hn. destruct n as [|n]; [lia|]. cbn [hcode].
  assert (Hd : (exists x, f = HVar x) \/ exists h t d, hcode f = VList (h :: t) d).
  { destruct f; try contradiction; cbn [hcode]; eauto. }
  destruct Hd as [(x & ->)|(h & t & d & Hc)].
  - inversion Wf as [|? Nx| | | | |]; subst. cbn [hcode] in *. destruct n as [|n]; [lia|].
    specialize (R1 (S n) ltac:(lia)). rewrite eval_S, step_var in R1 by auto. unfold lookup, ebind, gets in R1.
    destruct (env_search st ce x) as [u|] eqn:Sx.
    2:{ unfold err, throw in R1. destruct (find_handler _ _ _) in R1; discriminate R1. }
    unfold ret in R1. injection R1 as -> ->.
    rewrite eval_S, (step_call prim (S n) (S n) ce x _ _ _ (name_form _ (NM x Nx)) (h_head _ _ _ _ _ _ _ _ _ B O Nx Sx) Sx NMw). apply G. lia.
  - rewrite eval_S, Hc. cbn [EvalModel.step]. rewrite <- Hc, (ret_bind _ _ _ _ _ (R1 n ltac:(lia))).
    replace (match map hcode args with [] => false | _ :: _ => false end) with false by (now destruct (map hcode args)). apply G. lia.
Qed.
Lemma hfails_head r f args : hwf f -> callee f -> (match f with HVar x => hlook r x = None /\ hunknown P free x | _ => True end) ->
  hfails r f -> hfails r (HApp f args).
Proof.
  intros Wf Cf U Hf st ce D B HD O. destruct (Hf st ce D B HD O) as (s1 & E1 & N & R).
  assert (Hd : (exists x, f = HVar x) \/ exists h t d, hcode f = VList (h :: t) d).
  { destruct f; try contradiction; cbn [hcode]; eauto. }
  destruct Hd as [(x & ->)|(h & t & d & Hc)].
  - exists st. split; [apply ext_refl|]. inversion Wf; subst. destruct U as (L & U). exists 1%nat. intros [|n] Hn; [lia|]. cbn [hcode].
    destruct (h_unknown _ _ _ _ _ B O L U) as (X1 & X2). rewrite eval_S. apply step_unknown; auto. apply name_form. auto.
  - exists s1. split; [exact E1|]. exists (S N). intros [|n] Hn; [lia|]. cbn [hcode]. rewrite eval_S, Hc. cbn [EvalModel.step].
    rewrite <- Hc. apply err_bind, R. lia.
Qed.
Lemma hfails_clo r f args ps b r' st ce (D : nat -> Prop) : hwf f -> callee f -> hevals r f (HClo ps b r') ->
  hbase st -> (forall i, D i -> all st i) -> erel D st r ce ->
  (forall s1 pe, ext st s1 -> hbase s1 -> (forall i, more D st s1 i -> all s1 i) -> erel (more D st s1) s1 r ce -> erel (more D st s1) s1 r' pe ->
     NoDup ps -> Forall nm ps ->
     exists N s2, ext s1 s2 /\ forall n, (N <= n)%nat -> apply_proc (eval n) ce (map VSym ps) false [hcode b] pe (map hcode args) s1 = err s2) ->
  exists st', ext st st' /\ fails ce (hcode (HApp f args)) st st'.
Proof.
  intros Wf Cf Hf B HD O G. destruct (Hf st ce D B HD O) as (s1 & w & E1 & V1 & R1). inversion V1 as [|? ? ? pe Np Nd Wb Op]; subst.
  assert (B1 := hbase_ext _ _ _ _ _ E1 B).
  assert (O1 : erel (more D st s1) s1 r ce).
  { refine (erel_keep nm D _ st s1 _ _ _ _ O); [now left|now apply (ext_keep P nm free)]. }
  destruct (G s1 pe E1 B1 (fun i => more_all D st s1 i E1 HD) O1 Op Nd Np) as (N2 & s2 & E2 & R2).
  exists s2. split; [now apply ext_trans with s1|].
  apply (app_runs r f args st ce D s1 (VProc (map VSym ps) false [hcode b] pe) s2); auto.
  exists (S N2). intros [|m] Hm; [lia|]. rewrite eval_S. exact (R2 m ltac:(lia)).
Qed.
Lemma hfails_operand r f args ps b r' : hwf f -> callee f -> hevals r f (HClo ps b r') -> bfails r (firstn (length ps) args) ->
  hfails r (HApp f args).
Proof.
  intros Wf Cf Hf Hb st ce D B HD O. apply (hfails_clo r f args ps b r' st ce D); auto. intros s1 pe E1 B1 HD1 O1 Op Nd Np.
  set (k := length (firstn (length ps) args)).
  destruct (henter_fails pe r (firstn k ps) (skipn k ps) (firstn (length ps) args) (skipn (length ps) args) (hcode b) s1 ce (more D st s1)) as (N & s2 & E2 & R2); auto.
  { unfold k. rewrite !firstn_length. lia. }
  { now apply nodup_firstn. }
  rewrite !firstn_skipn in R2. eauto.
Qed.
Lemma hfails_arity r f args ps b r' : hwf f -> callee f -> hevals r f (HClo ps b r') -> bgoes r (firstn (length ps) args) ->
  length args <> length ps -> hfails r (HApp f args).
Proof.
  intros Wf Cf Hf Hb Ne st ce D B HD O. apply (hfails_clo r f args ps b r' st ce D); auto. intros s1 pe E1 B1 HD1 O1 Op Nd Np.
  set (k := length (firstn (length ps) args)).
  destruct (henter_fails pe r (firstn k ps) (skipn k ps) (firstn (length ps) args) (skipn (length ps) args) (hcode b) s1 ce (more D st s1)) as (N & s2 & E2 & R2); auto.
  { unfold k. rewrite !firstn_length. lia. }
  { now apply nodup_firstn. }
  { right. split; [exact Hb|]. unfold k. rewrite firstn_length.
    assert (L1 : length (skipn (Nat.min (length ps) (length args)) ps) = (length ps - Nat.min (length ps) (length args))%nat) by apply skipn_length.
    assert (L2 : length (skipn (length ps) args) = (length args - length ps)%nat) by apply skipn_length.
    split; intros H.
    - rewrite H in L1. cbn in L1. intros Q. rewrite Q in L2. cbn in L2. lia.
    - destruct (skipn (length ps) args) eqn:Q; [now elim H|]. cbn in L2.
      destruct (skipn (Nat.min (length ps) (length args)) ps); [reflexivity|]. cbn in L1. lia. }
  rewrite !firstn_skipn in R2. eauto.
Qed.
Lemma hfails_body r f args ps b r' vs : hwf f -> callee f -> hevals r f (HClo ps b r') -> hbinds r args vs -> length vs = length ps ->
  length args = length vs -> hfails (combine ps vs ++ r') b -> hfails r (HApp f args).
Proof.
  intros Wf Cf Hf Hargs Lv La Hb st ce D B HD O. apply (hfails_clo r f args ps b r' st ce D); auto. intros s1 pe E1 B1 HD1 O1 Op Nd Np.
  apply (henter_body pe r' r ps vs args b s1 ce (more D st s1)); auto. congruence.
Qed.
Lemma hfails_call_int r f args z : hwf f -> callee f -> hevals r f (HI z) -> args <> [] -> hfails r (HApp f args).
Proof.
  intros Wf Cf Hf Ne st ce D B HD O. destruct (Hf st ce D B HD O) as (s1 & w & E1 & V1 & R1). inversion V1; subst.
  exists s1. split; [exact E1|]. apply (app_runs r f args st ce D s1 (VInt z) s1); auto.
  exists 1%nat. intros [|n] Hn; [lia|]. rewrite eval_S. cbn [EvalModel.step]. destruct args; [now elim Ne|reflexivity].
Qed.

Scheme her_min := Minimality for her Sort Prop with hers_min := Minimality for hers Sort Prop.
Combined Scheme her_hers_min from her_min, hers_min.
Theorem herfollows :
  (forall r e, her P free r e -> hwf e -> rwf nm r -> hfails r e) /\
  (forall r es, hers P free r es -> Forall hwf es -> rwf nm r -> bfails r es).
Proof.
  assert (HE : forall r e v, hev P r e v -> hwf e -> rwf nm r -> hevals r e v) by (apply (hfollows prim P nm free HN NM WP)).
  assert (HB : forall r es vs, hevs P r es vs -> Forall hwf es -> rwf nm r -> hbinds r es vs) by (apply (hfollows prim P nm free HN NM WP)).
  assert (VW : forall r e v, hev P r e v -> hwf e -> rwf nm r -> vwf nm v) by (apply (hev_wf P nm WP)).
  assert (VS : forall r es vs, hevs P r es vs -> Forall hwf es -> rwf nm r -> Forall (vwf nm) vs) by (apply (hev_wf P nm WP)).
  apply her_hers_min.
  - intros r x L U W R. inversion W; subst. now apply hfails_unbound.
  - intros r o a b x Ea Eb Dv W R. inversion W; subst. apply (hfails_zero r o a b x); auto.
  - intros r o a b _ IH W R. inversion W; subst. apply hfails_left; auto.
  - intros r o a b v Ea _ IH W R. inversion W; subst. apply (hfails_right r o a b v); auto.
  - intros r c a b t f _ IH W R. inversion W; subst. apply hfails_if_left; auto.
  - intros r c a b t f v Ea _ IH W R. inversion W; subst. apply (hfails_if_right r c a b t f v); auto.
  - intros r c a b t f x y Ea Eb _ IH W R. inversion W; subst. apply (hfails_if r c a b t f x y); auto.
    apply IH; auto. now destruct (holds c x y).
  - intros r x a b _ IH W R. inversion W; subst. apply hfails_let_left; auto.
  - intros r x a b w Ea _ IH W R. inversion W; subst. apply (hfails_let r x a b w); auto. apply IH; auto. constructor; auto. eapply VW; eauto.
  - intros r f args Ef IH W R. inversion W; subst. apply hfails_head; auto. destruct f; auto. inversion Ef; subst. auto.
  - intros r f args ps b r' Ef _ IH W R. inversion W; subst. apply (hfails_operand r f args ps b r'); auto. apply IH; auto. now apply forall_firstn.
  - intros r f args ps b r' vs Ef Es Ne W R. inversion W; subst. apply (hfails_arity r f args ps b r'); auto.
    apply (bgoes_all r _ vs); auto. now apply forall_firstn.
  - intros r f args ps b r' vs Ef Es Lv _ IH W R. inversion W; subst.
    assert (V : vwf nm (HClo ps b r')) by (eapply VW; eauto). inversion V; subst.
    apply (hfails_body r f args ps b r' vs); auto.
    + eapply hevs_length; eauto.
    + apply IH; auto. apply rwf_app; auto. apply rwf_combine. eapply VS; eauto.
  - intros r f args z Ef Ne W R. inversion W; subst. apply (hfails_call_int r f args z); auto.
  - intros r a l _ IH W R. inversion W; subst. apply bfails_head; auto.
  - intros r a l v Ea _ IH W R. inversion W; subst. apply (bfails_tail r a l v); auto.
Qed.
End Err.
