(** Proofs for C214. *)
From Coq Require Import String Lia.
From Verif Require Import Base NumModel NumSpec ParseModel ParseSpec PrintModel ParseProperties EnvModel EvalModel EvalMono
  ApiModel LangSpec DivSpec LangProofs LangProofs2 LangProofs3.
From Verif Require EnvProofs.
Local Open Scope string_scope.
Local Open Scope Z_scope.
Local Open Scope list_scope.

Lemma look_in r x : look r x = None -> ~ In x (map fst r).
Proof.
  induction r as [|[y z] r IH]; cbn; [intros _ []|]. destruct (list_eq_dec Z.eq_dec y x); [discriminate|]. intros L [?|I]; [contradiction|].
  now apply IH.
Qed.
Lemma look_out r x : ~ In x (map fst r) -> look r x = None.
Proof.
  induction r as [|[y z] r IH]; cbn; [reflexivity|]. intros N. destruct (list_eq_dec Z.eq_dec y x) as [->|]; [now elim N; left|].
  apply IH. intros I. apply N. now right.
Qed.

Section Conv.
Variable prim : list Z -> list val -> pres.
Variable P : list fn.
Variable free : list Z -> Prop.
Hypothesis HN : numeric prim.
Hypothesis WP : Forall wf_fn P.
Hypothesis ND : NoDup (map f_name P).
Hypothesis SP : Forall (fun d => scoped P free (f_params d) (f_body d)) P.
Notation eval := (eval prim).
Notation step := (step prim).
Notation base := (base P free).
Notation okenv := okenv.

Lemma got {A} (m : nat -> EM A) st w n : outcome m st w -> (forall i j, (i <= j)%nat -> mle (m i) (m j)) -> m n st <> OFuel ->
  exists s', ext st s' /\ m n st = match w with Some v => Ret v s' | None => err s' end.
Proof.
  intros (N & s' & E & H) M F. exists s'. split; [exact E|]. rewrite <- (H (N + n)%nat) by lia.
  destruct (M n (N + n)%nat ltac:(lia) st) as [? | ->]; [contradiction|reflexivity].
Qed.
Lemma bind_fuel {A B} (m : EM A) (f : A -> EM B) st : ebind m f st <> OFuel -> m st <> OFuel.
Proof. unfold ebind. intros H E. now rewrite E in H. Qed.
Definition small_map (w : option Z) : option val := match w with Some z => Some (VInt z) | None => None end.

Definition conv (n : nat) : Prop := forall r e st ce L, base st -> okenv L st ce r -> wf e -> names_ok r -> scoped P free (map fst r) e ->
  eval n ce (code e) st <> OFuel -> (exists w, ev P free r e w) \/ over P free r e.

Lemma ev_got n r e w st ce L : ev P free r e w -> wf e -> names_ok r -> base st -> okenv L st ce r -> eval n ce (code e) st <> OFuel ->
  exists s', ext st s' /\ base s' /\ okenv L s' ce r /\ eval n ce (code e) st = match w with Some z => Ret (VInt z) s' | None => err s' end.
Proof.
  intros E W N B O F.
  destruct (got (fun n => eval n ce (code e)) st (small_map w) n) as (s' & X & G); auto.
  - exact (proj1 (follows prim P free HN WP) r e w E W N st ce L B O).
  - intros i j H. now apply eval_mono.
  - exists s'. split; [exact X|]. split; [now apply (ext_base P free st)|]. split; [now apply (ext_okenv L st)|]. rewrite G. now destruct w.
Qed.

(* both operands of an operator *)
Lemma conv_two n r a b st ce L : conv n -> base st -> okenv L st ce r -> wf a -> wf b -> names_ok r ->
  scoped P free (map fst r) a -> scoped P free (map fst r) b ->
  eval_args (eval n) ce [code a; code b] st <> OFuel ->
  (over P free r a \/ ev P free r a None) \/
  exists x, ev P free r a (Some x) /\ (over P free r b \/ ev P free r b None \/ exists y, ev P free r b (Some y)).
Proof.
  intros C B O Wa Wb N Sa Sb F. cbn [eval_args] in F. pose proof (bind_fuel _ _ _ F) as Fa.
  destruct (C r a st ce L B O Wa N Sa Fa) as [([x|] & Ea)|?]; [|auto|auto]. right. exists x. split; [exact Ea|].
  destruct (ev_got n r a _ st ce L Ea Wa N B O Fa) as (s1 & _ & B1 & O1 & G). rewrite (ret_bind _ _ _ _ _ G) in F.
  pose proof (bind_fuel _ _ _ F) as Fb. apply bind_fuel in Fb.
  destruct (C r b s1 ce L B1 O1 Wb N Sb Fb) as [([y|] & Eb)|?]; eauto.
Qed.

Lemma conv_bin n r o a b st ce L : conv n -> (forall m, (m < n)%nat -> conv m) -> base st -> okenv L st ce r -> wf a -> wf b -> names_ok r ->
  scoped P free (map fst r) a -> scoped P free (map fst r) b -> eval (S n) ce (code (Bin o a b)) st <> OFuel ->
  (exists w, ev P free r (Bin o a b) w) \/ over P free r (Bin o a b).
Proof.
  intros C CC B O Wa Wb N Sa Sb F. cbn [code] in F.
  assert (NL : look r (op_name o) = None) by (apply names_none; auto; apply not_op).
  destruct (head_found P free L st ce r (op_name o) _ B O NL (b_op _ _ _ B o) eq_refl) as (H1 & H2).
  rewrite eval_S, (step_call prim n n ce (op_name o) _ _ _ (op_form o) H1 H2 eq_refl) in F.
  destruct n as [|n]; [now elim F|]. rewrite eval_S, step_op in F. apply bind_fuel in F.
  destruct (conv_two n r a b st ce L (CC n ltac:(lia)) B O Wa Wb N Sa Sb F) as [[X|X]|(x & X & [Y|[Y|(y & Y)]])].
  - right. now apply ov_left.
  - left. exists None. now apply ev_bin_left.
  - right. eapply ov_right; eauto.
  - left. exists None. eapply ev_bin_right; eauto.
  - destruct (Z.eq_dec y 0) as [->|NZ].
    + destruct (match o with OQuo | ORem | OMod => true | _ => false end) eqn:D.
      * left. exists None. eapply ev_bin_zero; eauto. unfold divides. destruct o; try discriminate; tauto.
      * assert (D' : divides o -> 0 <> 0) by (intros [->|[->| ->]]; discriminate).
        destruct (Z_lt_dec (Z.abs (arith o x 0)) (2 ^ 63)); [left; eexists; eapply ev_bin; eauto|right; eapply ov_here; eauto].
    + destruct (Z_lt_dec (Z.abs (arith o x y)) (2 ^ 63)); [left; eexists; eapply ev_bin; eauto|right; eapply ov_here; eauto].
Qed.

Lemma conv_if n r c a b t f st ce L : (forall m, (m <= n)%nat -> conv m) -> base st -> okenv L st ce r -> wf (If c a b t f) -> names_ok r ->
  scoped P free (map fst r) (If c a b t f) -> eval (S n) ce (code (If c a b t f)) st <> OFuel ->
  (exists w, ev P free r (If c a b t f) w) \/ over P free r (If c a b t f).
Proof.
  intros C B O W N Sc F. inversion W as [| | |? ? ? ? ? Wa Wb Wt Wf| |]; subst. inversion Sc as [| | |? ? ? ? ? ? Sa Sb St Sf| |]; subst.
  cbn [code] in F.
  assert (NI : look r (bs "if") = None) by (apply names_none; auto; apply not_key; apply in_map; cbn; tauto).
  assert (PI := key_plain P free L st ce r (bs "if") B O NI ltac:(cbn; tauto)).
  rewrite eval_S in F. unfold sym in F. rewrite (step_form prim n n ce (bs "if") FIf _ _ _ PI eq_refl) in F. cbn [special] in F. unfold do_if in F.
  assert (NL : look r (rel_name c) = None) by (apply names_none; auto; apply not_rel).
  destruct (head_found P free L st ce r (rel_name c) _ B O NL (b_rel _ _ _ B c) eq_refl) as (H1 & H2).
  pose proof (bind_fuel _ _ _ F) as Ft. pose proof Ft as Ft0. destruct n as [|n]; [now elim Ft|].
  rewrite eval_S, (step_call prim n n ce (rel_name c) _ _ _ (rel_form c) H1 H2 eq_refl) in Ft.
  destruct n as [|n]; [now elim Ft|]. rewrite eval_S, step_rel in Ft. apply bind_fuel in Ft.
  destruct (conv_two n r a b st ce L (C n ltac:(lia)) B O Wa Wb N Sa Sb Ft) as [[X|X]|(x & X & [Y|[Y|(y & Y)]])].
  - right. now apply ov_test_left.
  - left. exists None. now apply ev_if_left.
  - right. eapply ov_test_right; eauto.
  - left. exists None. eapply ev_if_right; eauto.
  - destruct (got (fun n => eval n ce (VList [VSym (rel_name c); code a; code b] false)) st (Some (VBool (holds c x y))) (S (S n)))
      as (s1 & E1 & G); auto.
    + apply (test_ok prim P free HN r c a b (Some x) (Some y) NL) with (L := L); auto.
      * exact (proj1 (follows prim P free HN WP) r a _ X Wa N).
      * intros _ _. exact (proj1 (follows prim P free HN WP) r b _ Y Wb N).
    + intros i j Hij. now apply eval_mono.
    + rewrite (ret_bind _ _ _ _ _ G) in F. cbn [truthy] in F.
      assert (Wr : wf (if holds c x y then t else f)) by (now destruct (holds c x y)).
      assert (Sr : scoped P free (map fst r) (if holds c x y then t else f)) by (now destruct (holds c x y)).
      assert (Fr : eval (S (S n)) ce (code (if holds c x y then t else f)) s1 <> OFuel) by (now destruct (holds c x y)).
      destruct (C (S (S n)) ltac:(lia) r _ s1 ce L (ext_base P free _ _ E1 B) (ext_okenv _ _ _ _ _ E1 O) Wr N Sr Fr) as [(w & Ew)|Ov].
      * left. exists w. eapply ev_if; eauto.
      * right. eapply ov_branch; eauto.
Qed.

(* binding parameters to operands *)
Lemma conv_binds n : conv n -> forall r es, Forall wf es -> names_ok r -> Forall (scoped P free (map fst r)) es ->
  forall ps st ce fe f c L ps2 args2, length ps = length es -> base st -> okenv L st ce r ->
  e_chain fe = f :: c -> (L <= f < length (s_frames st))%nat ->
  bind_loop (eval n) ce fe false (map VSym ps ++ ps2) (map code es ++ args2) st <> OFuel ->
  (exists w, evs P free r es w) \/ overs P free r es.
Proof.
  intros C r es. induction es as [|e es IH]; intros W N Sc ps st ce fe f c L ps2 args2 Hl B O E Hf F.
  - left. exists (Some []). constructor.
  - destruct ps as [|p ps]; [discriminate|]. inversion W as [|? ? We Ws]; subst. inversion Sc as [|? ? Se Ss]; subst.
    cbn [map app bind_loop is_sym] in F. pose proof (bind_fuel _ _ _ F) as Fe.
    destruct (C r e st ce L B O We N Se Fe) as [([x|] & Ee)|?].
    + destruct (ev_got n r e _ st ce L Ee We N B O Fe) as (s1 & E1 & B1 & O1 & G). rewrite (ret_bind _ _ _ _ _ G) in F.
      pose proof (same_length _ _ _ E1) as LE1.
      destruct (insert_ok L s1 fe f c p (VInt x) E ltac:(lia)) as (s2 & I2 & S2 & LE2 & _). rewrite (ret_bind _ _ _ _ _ I2) in F.
      assert (B2 : base s2). { apply (base_same P free L s1); auto. pose proof (o_len _ _ _ _ O). lia. }
      assert (O2 : okenv L s2 ce r) by (eapply okenv_same; eauto).
      assert (Hl' : length ps = length es) by (now injection Hl).
      destruct (IH Ws N Ss ps s2 ce fe f c L ps2 args2 Hl' B2 O2 E ltac:(lia) F) as [([vs|] & Ev)|Ov]; auto.
      * left. exists (Some (x :: vs)). now apply evs_cons.
      * left. exists None. eapply evs_tail; eauto.
      * right. eapply ovs_tail; eauto.
    + left. exists None. now apply evs_head.
    + right. now apply ovs_head.
Qed.

(* the body of a procedure whose operands have values *)
Lemma conv_enter n pe r0 r ps vs es body st ce L : conv n ->
  base st -> okenv L st ce r -> okenv L st pe r0 ->
  length ps = length es -> NoDup ps -> Forall name ps -> Forall wf es -> names_ok r ->
  evs P free r es (Some vs) -> wf body -> names_ok (combine ps vs ++ r0) -> scoped P free (map fst (combine ps vs ++ r0)) body ->
  apply_proc (eval n) ce (map VSym ps) false [code body] pe (map code es) st <> OFuel ->
  (exists w, ev P free (combine ps vs ++ r0) body w) \/ over P free (combine ps vs ++ r0) body.
Proof.
  intros C B O Op Hl ND0 Nm We N Es Wb Nb Sb F. destruct (alloc_ok st pe) as (A & E1 & L1 & Fr).
  set (st1 := mkState (s_frames st ++ [[]]) (s_mods st) (s_cur st) (s_proms st) (s_dyn st)) in *.
  set (fe := mkEnv (length (s_frames st) :: e_chain pe) (e_mod pe)) in *.
  set (K := length (s_frames st)) in *. pose proof (o_len _ _ _ _ O) as LL.
  assert (OK : okenv K st ce r) by (apply (okenv_more L); auto; lia).
  assert (OKp : okenv K st pe r0) by (apply (okenv_more L); auto; lia).
  pose proof (proj2 (follows prim P free HN WP) r es _ Es We N) as Hb.
  destruct (Hb ps st1 ce fe K (e_chain pe) K Hl ND0 (ext_base P free _ _ E1 B) (okenv_same _ _ _ _ _ E1 OK) eq_refl ltac:(lia)) as (N2 & s2 & S2 & F2 & H2).
  specialize (F2 vs eq_refl).
  assert (S02 : ext st s2) by (apply same_trans with st1; auto).
  pose proof (same_length _ _ _ S2) as LE2.
  unfold apply_proc in F. rewrite (ret_bind _ _ _ _ _ A) in F. cbn [has_rest andb] in F. cbn zeta in F. fold fe in F.
  pose proof (bind_fuel _ _ _ F) as Fb.
  assert (G : bind_loop (eval n) ce fe false (map VSym ps) (map code es) st1 = Ret true s2).
  { specialize (H2 (N2 + n)%nat ltac:(lia) [] []). rewrite !app_nil_r in H2. cbn [bind_loop ret] in H2. unfold ret in H2. rewrite <- H2.
    destruct (m_bind (eval n) (eval (N2 + n)%nat) (fun e x => eval_mono prim n (N2 + n)%nat e x ltac:(lia)) ce fe false (map VSym ps) (map code es) st1) as [X|X];
      [contradiction|exact X]. }
  rewrite (ret_bind _ _ _ _ _ G) in F. cbn [eval_body] in F.
  refine (C _ body s2 fe (S K) _ _ Wb Nb Sb F).
  - now apply (ext_base P free st).
  - destruct (okenv_same _ _ _ _ _ S02 OKp) as [M Cc Le F3 Nn]. constructor.
    + exact M.
    + unfold fe. cbn [e_chain]. constructor; [lia|]. eapply Forall_impl; [|exact Cc]. cbn. lia.
    + lia.
    + intros x. unfold fe. cbn [e_chain search_chain]. rewrite F2, Fr.
      assert (LK : look (combine ps vs ++ r0) x = match look (combine ps vs) x with Some z => Some z | None => look r0 x end).
      { clear. generalize (combine ps vs) as l. induction l as [|[y z] l IH]; cbn; [reflexivity|]. destruct (list_eq_dec Z.eq_dec y x); auto. }
      rewrite LK. destruct (look (combine ps vs) x) as [z|]; [reflexivity|]. cbn [assoc]. apply F3.
    + exact Nb.
Qed.

Lemma conv_let n r x a b st ce L : (forall m, (m <= n)%nat -> conv m) -> base st -> okenv L st ce r -> wf (Let x a b) -> names_ok r ->
  scoped P free (map fst r) (Let x a b) -> eval (S n) ce (code (Let x a b)) st <> OFuel ->
  (exists w, ev P free r (Let x a b) w) \/ over P free r (Let x a b).
Proof.
  intros C B O W N Sc F. inversion W as [| | | |? ? ? Nx Wa Wb|]; subst. inversion Sc as [| | | |? ? ? ? Sa Sb|]; subst.
  cbn [code] in F.
  assert (NL : look r (bs "let") = None) by (apply names_none; auto; apply not_key; apply in_map; cbn; tauto).
  assert (NLa : look r (bs "lambda") = None) by (apply names_none; auto; apply not_key; apply in_map; cbn; tauto).
  assert (PL := key_plain P free L st ce r (bs "let") B O NL ltac:(cbn; tauto)).
  assert (PLa := key_plain P free L st ce r (bs "lambda") B O NLa ltac:(cbn; tauto)).
  rewrite eval_S in F. unfold sym in F at 1. rewrite (step_form prim n n ce (bs "let") FLet _ _ _ PL eq_refl) in F.
  change (eval n ce (VList [VList [sym "lambda"; VList [VSym x] false; code b] false; code a] false) st <> OFuel) in F.
  destruct n as [|n]; [now elim F|]. rewrite eval_S in F. cbn [EvalModel.step] in F.
  destruct n as [|n]; [now elim F|].
  assert (LA : eval (S n) ce (VList [sym "lambda"; VList [VSym x] false; code b] false) st = Ret (VProc [VSym x] false [code b] ce) st).
  { rewrite eval_S. unfold sym. rewrite (step_form prim n n ce (bs "lambda") FLambda) by auto. reflexivity. }
  rewrite (ret_bind _ _ _ _ _ LA) in F.
  change (eval (S n) ce (VList [VProc [VSym x] false [code b] ce; code a] false) st <> OFuel) in F. rewrite eval_S in F.
  change (apply_proc (eval n) ce (map VSym [x]) false [code b] ce (map code [a]) st <> OFuel) in F.
  assert (X : (exists w, evs P free r [a] w) \/ overs P free r [a]).
  { destruct (alloc_ok st ce) as (A & E1 & L1 & Fr). pose proof (o_len _ _ _ _ O) as LL. pose proof F as F0.
    unfold apply_proc in F0. rewrite (ret_bind _ _ _ _ _ A) in F0. cbn [has_rest andb] in F0. cbn zeta in F0. apply bind_fuel in F0.
    rewrite <- (app_nil_r (map VSym [x])), <- (app_nil_r (map code [a])) in F0.
    refine (conv_binds n (C n ltac:(lia)) r [a] _ N _ [x] _ ce (mkEnv (length (s_frames st) :: e_chain ce) (e_mod ce)) (length (s_frames st)) (e_chain ce) L [] [] eq_refl _ _ eq_refl _ F0).
    - repeat constructor; assumption.
    - repeat constructor; assumption.
    - now apply (ext_base P free st).
    - apply (ext_okenv L st); assumption.
    - cbn [s_frames]. rewrite app_length. cbn [length]. lia. }
  destruct X as [([vs|] & Ex)|Ox].
  - inversion Ex as [|? ? ? z ? Ea El| |]; subst. inversion El; subst.
    destruct (conv_enter n ce r r [x] [z] [a] b st ce L (C n ltac:(lia)) B O O eq_refl) as [(w & Ew)|Ov]; auto.
    + repeat constructor. intros [].
    + assert (Sz : small z) by exact (small_ev P free WP _ _ _ Ea Wa N). intros y u. cbn.
      destruct (list_eq_dec Z.eq_dec x y) as [->|]; [intros [= <-]; auto|apply N].
    + left. exists w. eapply ev_let; eauto.
    + right. eapply ov_let; eauto.
  - left. exists None. apply ev_let_left. inversion Ex as [|?|?|? ? ? z Ea El]; subst; [assumption|inversion El].
  - right. apply ov_bound. inversion Ox as [|? ? ? z Ea El]; subst; [assumption|inversion El].
Qed.

Lemma combine_fst {A B} (ps : list A) (vs : list B) : length vs = length ps -> map fst (combine ps vs) = ps.
Proof. revert vs. induction ps as [|p ps IH]; intros [|v vs] H; cbn in *; try lia; auto. f_equal. apply IH. lia. Qed.

Lemma conv_call n r f args st ce L : (forall m, (m <= n)%nat -> conv m) -> base st -> okenv L st ce r -> wf (Call f args) -> names_ok r ->
  scoped P free (map fst r) (Call f args) -> eval (S n) ce (code (Call f args)) st <> OFuel ->
  (exists w, ev P free r (Call f args) w) \/ over P free r (Call f args).
Proof.
  intros C B O W N Sc F. inversion W as [| | | | |? ? Nf Wargs]; subst. inversion Sc as [| | | | |? ? ? NI Kn Sargs]; subst.
  pose proof (look_out r f NI) as Lf. destruct Kn as [I|U]; [|left; exists None; now apply ev_call_unbound].
  apply in_map_iff in I as (d & <- & I).
  assert (WD : wf_fn d) by (rewrite Forall_forall in WP; now apply WP). destruct WD as (_ & Np & Nd & Wb).
  assert (SD : scoped P free (f_params d) (f_body d)) by (rewrite Forall_forall in SP; now apply SP).
  cbn [code] in F. destruct (head_fn P free L st ce r d B O I Lf) as (H1 & H2).
  rewrite eval_S in F. rewrite (step_call prim n n ce (f_name d) _ _ _ (name_form _ Nf) (or_intror H1) H2 eq_refl) in F.
  destruct n as [|n]; [now elim F|]. rewrite eval_S in F.
  change (apply_proc (eval n) ce (map VSym (f_params d)) false [code (f_body d)] g_env (map code args) st <> OFuel) in F.
  set (k := length (f_params d)) in *.
  assert (X : (exists w, evs P free r (firstn k args) w) \/ overs P free r (firstn k args)).
  { destruct (alloc_ok st g_env) as (A & E1 & L1 & Fr). pose proof (o_len _ _ _ _ O) as LL. pose proof F as F0.
    unfold apply_proc in F0. rewrite (ret_bind _ _ _ _ _ A) in F0. cbn [has_rest andb] in F0. cbn zeta in F0. apply bind_fuel in F0.
    assert (LE : (length (firstn k args) <= k)%nat) by (rewrite firstn_length; lia).
    assert (Q1 : map VSym (f_params d) = map VSym (firstn (length (firstn k args)) (f_params d)) ++ map VSym (skipn (length (firstn k args)) (f_params d))).
    { now rewrite <- map_app, firstn_skipn. }
    assert (Q2 : map code args = map code (firstn k args) ++ map code (skipn k args)) by (now rewrite <- map_app, firstn_skipn).
    rewrite Q1, Q2 in F0.
    refine (conv_binds n (C n ltac:(lia)) r (firstn k args) _ N _ (firstn (length (firstn k args)) (f_params d)) _ ce (mkEnv (length (s_frames st) :: e_chain g_env) (e_mod g_env)) (length (s_frames st)) (e_chain g_env) L _ _ _ _ _ eq_refl _ F0).
    - now apply forall_firstn.
    - now apply forall_firstn.
    - rewrite firstn_length. fold k. lia.
    - now apply (ext_base P free st).
    - apply (ext_okenv L st); assumption.
    - cbn [s_frames]. rewrite app_length. cbn [length]. lia. }
  destruct X as [([vs|] & Ex)|Ox].
  - destruct (Nat.eq_dec (length args) k) as [Lk|Lk].
    + rewrite firstn_all2 in Ex by lia. pose proof (evs_length P free r args vs Ex) as Lv.
      assert (Sv : Forall small vs).
      { apply (proj2 (ev_small_both P free WP) _ _ _ Ex) with (vs := vs); auto. intros y u Q. apply (N y u Q). }
      assert (Nb : names_ok (combine (f_params d) vs)) by now apply names_combine.
      assert (Fs : map fst (combine (f_params d) vs) = f_params d) by (apply combine_fst; fold k; lia).
      destruct (conv_enter n g_env [] r (f_params d) vs args (f_body d) st ce (length (s_frames st)) (C n ltac:(lia)) B) as [(w & Ew)|Ov]; auto.
      * apply (okenv_more L); auto. pose proof (o_len _ _ _ _ O). lia.
      * now apply okenv_global with (P := P) (free := free).
      * now rewrite app_nil_r.
      * rewrite app_nil_r, Fs. exact SD.
      * rewrite app_nil_r in Ew. left. exists w. eapply ev_call; eauto. lia.
      * rewrite app_nil_r in Ov. right. eapply ov_call; eauto. lia.
    + left. exists None. eapply ev_call_arity; eauto.
  - left. exists None. eapply ev_call_operand; eauto.
  - right. eapply ov_operand; eauto.
Qed.

Theorem converse : forall n, conv n.
Proof.
  induction n as [n IH] using lt_wf_ind. intros r e st ce L B O W N Sc F. destruct n as [|n]; [now elim F|].
  assert (C : forall m, (m <= n)%nat -> conv m) by (intros; apply IH; lia).
  destruct e.
  - left. exists (Some z). constructor.
  - left. destruct (look r x) as [z|] eqn:E; [exists (Some z); now constructor|]. exists None. apply ev_unbound; auto.
    inversion Sc as [|? ? [I|U]| | | |]; subst; [now elim (look_in r x E)|exact U].
  - inversion W; subst. inversion Sc; subst. apply (conv_bin n r o e1 e2 st ce L); auto with arith.
  - now apply (conv_if n r r0 e1 e2 e3 e4 st ce L).
  - now apply (conv_let n r x e1 e2 st ce L).
  - now apply (conv_call n r f args st ce L).
Qed.
End Conv.
