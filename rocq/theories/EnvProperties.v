(** C38-C40, C42-C44: variable lookup, set!, define, modules.
    C41 (do loops) is in EvalProperties. *)
From Coq Require Import Lia String.
From Verif Require Import Base ParseModel ParseProofs EnvModel EnvSpec EnvProofs.
Local Open Scope string_scope.
Local Open Scope list_scope.
Notation "[ ]" := (@nil _) : list_scope.

(** A state used by the examples: frame 1 binds a to 10, frame 2 (inner) binds b
    to 20; the root module binds c to 30 and a to 31; module 1 binds d to 40 and
    a to 41; module 2 uses module 1; car is a global procedure. *)
Definition ex_st : state := mkState
  [[(bs "car", VFunc (bs "car") 1)]; [(bs "a", VInt 10)]; [(bs "b", VInt 20)]]
  [mkMod [(bs "c", VInt 30); (bs "a", VInt 31)] [] [] None; mkMod [(bs "d", VInt 40); (bs "a", VInt 41)] [] [] None;
   mkMod [] [1%nat] [] None]
  0 [] (mkDyn [] [] [] 0 [] [] [] [] 0 0).
Definition ex_env : env := mkEnv [2; 1; 0]%nat None.
Definition ex_menv : env := mkEnv [2; 1; 0]%nat (Some 1%nat).
Lemma ex_env_proper : proper_env ex_env.
Proof. exists [2; 1]%nat. split; [reflexivity|]. cbn. intros [|[|[]]]; discriminate. Qed.
Lemma ex_menv_proper : proper_env ex_menv.
Proof. exists [2; 1]%nat. split; [reflexivity|]. cbn. intros [|[|[]]]; discriminate. Qed.
Lemma ex_exist e : e = ex_env \/ e = ex_menv -> places_exist ex_st e.
Proof.
  intros [-> | ->]; (split; [repeat constructor|split; [|split; [|split; [|split]]]]); cbn; try lia; intros.
  - discriminate.
  - destruct m as [|[|[|m]]]; cbn in H; try tauto; [lia|destruct m; destruct H].
  - injection H as <-; lia.
  - destruct m as [|[|[|m]]]; cbn in H; try tauto; [lia|destruct m; destruct H].
Qed.

(** * C38. Lookup order *)
(* The exact order the code follows, for every name and environment: inner frames
   first, then the global table, then the environment's module, then the current
   module. *)
Theorem c38_lookup_order : forall st e x, proper_env e ->
  env_search st e x = option_map snd (first_bound st (actual st e) x).
Proof. intros st e x P. rewrite env_search_actual by auto. destruct (first_bound st (actual st e) x) as [[p v]|]; auto. Qed.
Print Assumptions c38_lookup_order.
(* It is the promised order for every name that has no global entry. *)
Theorem c123_promised_order : forall st e x, proper_env e -> bound st (InFrame 0) x = None ->
  env_search st e x = option_map snd (first_bound st (promised st e) x).
Proof.
  intros st e x P G. rewrite c38_lookup_order by auto. unfold actual, promised. rewrite !first_bound_app.
  cbn [first_bound]. rewrite G. destruct (first_bound st (lexical e) x) as [[p v]|]; auto.
  destruct (first_bound st (module_of st e) x) as [[p v]|]; auto.
  destruct (first_bound st (module_places st (s_cur st)) x) as [[p v]|]; auto.
Qed.
Print Assumptions c123_promised_order.
(* Frames and modules not in the chain do not matter. *)
Theorem c38_no_interference : forall st st' e x, proper_env e -> actual st' e = actual st e ->
  (forall p, In p (actual st e) -> bound st' p x = bound st p x) -> env_search st' e x = env_search st e x.
Proof.
  intros st st' e x P A H. rewrite !c38_lookup_order by auto. rewrite A. f_equal. apply first_bound_ext. auto.
Qed.
Print Assumptions c38_no_interference.
(* False for names that have a global entry: a procedure definition at the top
   level goes to the current module, and references go on seeing the old
   definition; the promised order would give the new one. *)
Theorem c169_redefinition_hidden_refuted : forall st x v w,
  bound st (InFrame 0) x = Some v -> exists_place st (InModule (s_cur st)) -> w <> v ->
  let st' := do_define_proc st x w in
  env_search st' g_env x = Some v /\ option_map snd (first_bound st' (promised st' g_env) x) = Some w.
Proof.
  intros st x v w G C N st'. destruct (put_mod st (s_cur st) x w C) as (B & O & _). split.
  - rewrite c38_lookup_order by (exists []; split; [reflexivity|intros []]).
    cbn. unfold st', do_define_proc. cbn in G. now rewrite G.
  - unfold promised. cbn [lexical g_env e_chain removelast map app module_of e_mod]. unfold module_places. cbn [app first_bound].
    replace (s_cur st') with (s_cur st) by reflexivity. unfold st', do_define_proc. now rewrite B.
Qed.
Print Assumptions c169_redefinition_hidden_refuted.
(* In operator position a binding of the current module (not the root one) hides
   the lexical bindings of all enclosing frames. *)
Theorem c169_operator_position_refuted : forall st e x a c v w,
  e_chain e = a :: c -> bound st (InFrame a) x = None -> first_bound st (map InFrame c) x = Some (InFrame v, w) ->
  forall m u, s_cur st = m -> m <> 0%nat -> bound st (InModule m) x = Some u ->
  env_search st e x = Some w /\ head_value st e x = Some u.
Proof.
  intros st e x a c v w C A F m u M N B. assert (X : env_exist st e x = None).
  { unfold env_exist, search_entry. rewrite C. cbn. unfold frame_at. cbn in A. now rewrite A. }
  split.
  - unfold env_search. rewrite X. assert (S1 : search_entry st e x true = Some (v, w)).
    { unfold search_entry. rewrite C. apply search_chain_some. cbn [map first_bound]. now rewrite A. }
    now rewrite S1.
  - unfold head_value. rewrite X. rewrite M. destruct (Nat.eqb_spec m root) as [E|]; [exfalso; apply N; exact E|].
    unfold ob_lookup, mod_at. cbn in B. now rewrite B.
Qed.
Print Assumptions c169_operator_position_refuted.
Example c38_ex :
  env_search ex_st ex_env (bs "b") = Some (VInt 20) /\ env_search ex_st ex_env (bs "a") = Some (VInt 10) /\
  env_search ex_st ex_env (bs "c") = Some (VInt 30) /\ env_search ex_st ex_menv (bs "d") = Some (VInt 40) /\
  env_search ex_st ex_env (bs "d") = None /\ env_search ex_st (mkEnv [2; 0]%nat (Some 1%nat)) (bs "a") = Some (VInt 41) /\
  bound ex_st (InFrame 0) (bs "car") = Some (VFunc (bs "car") 1) /\
  head_value (set_current ex_st 1) ex_env (bs "a") = Some (VInt 41).
Proof. repeat split; vm_compute; reflexivity. Qed.

(** * C39. set! *)
(* set! on a bound name changes the binding a reference sees, to the new value,
   and nothing else, when the environment has no module of its own, or that of
   the current module, or the binding is in a frame. *)
Theorem c39_set : forall st e x v p old, proper_env e -> places_exist st e ->
  first_bound st (actual st e) x = Some (p, old) ->
  e_mod e = None \/ e_mod e = Some (s_cur st) \/ (exists a, p = InFrame a) ->
  let st' := do_set st e x v in
  bound st' p x = Some v /\ only_changed st st' p x /\ env_search st' e x = Some v.
Proof.
  intros st e x v p old P (EF & EC & EM & E0 & EG & EU) F C st'.
  destruct P as (l & L & N0). assert (P : proper_env e) by (exists l; auto).
  assert (LX : lexical e ++ [InFrame 0] = map InFrame (e_chain e)).
  { unfold lexical. rewrite L, removelast_last, map_app. reflexivity. }
  assert (F' := F). unfold actual in F'. rewrite app_assoc, LX, first_bound_app in F'.
  assert (AC : forall s1 s2, s_cur s1 = s_cur s2 -> (forall k, m_uses (mod_at s1 k) = m_uses (mod_at s2 k)) -> actual s1 e = actual s2 e).
  { intros s1 s2 Q1 Q2. unfold actual, module_of, module_places. rewrite Q1. unfold mod_at in Q2. destruct (e_mod e); rewrite !Q2; auto. }
  unfold st', do_set. change (search_entry st e x true) with (search_chain st (e_chain e) x).
  destruct (first_bound st (map InFrame (e_chain e)) x) as [[q w]|] eqn:FF.
  - injection F' as -> ->. destruct (first_frame _ _ _ _ _ FF) as (a & ->). apply search_chain_some in FF as S1. rewrite S1.
    assert (LA : (a < length (s_frames st))%nat).
    { apply first_bound_bound in FF. destruct FF as [I _]. apply in_map_iff in I. destruct I as (b & [= ->] & I).
      rewrite Forall_forall in EF. exact (EF _ I). }
    destruct (put_frame st a x v LA) as (B & O & Q1 & Q2). split; [auto|split; [auto|]].
    rewrite c38_lookup_order by auto. rewrite (AC _ st).
    + rewrite (first_bound_update st _ (actual st e) x (InFrame a) old v); auto.
    + auto.
    + intros k. unfold mod_at. now rewrite Q2.
  - apply search_chain_none in FF as S1. rewrite S1.
    assert (M : exists k, p = InModule k /\ mod_find st (s_cur st) x = Some (k, old)).
    { rewrite first_bound_app in F'. destruct C as [C|[C|(a & ->)]].
      - unfold module_of in F'. rewrite C in F'. cbn [first_bound] in F'.
        destruct (module_places_module _ _ _ _ _ F') as (k & ->). exists k. split; auto. now apply mod_find_some.
      - unfold module_of in F'. rewrite C in F'. destruct (first_bound st (module_places st (s_cur st)) x) as [[q w]|] eqn:G; [|discriminate].
        injection F' as -> ->. destruct (module_places_module _ _ _ _ _ G) as (k & ->). exists k. split; auto. now apply mod_find_some.
      - destruct (first_bound st (module_of st e) x) as [[q w]|] eqn:G.
        + injection F' as -> ->. unfold module_of in G. destruct (e_mod e); [|discriminate].
          destruct (module_places_module _ _ _ _ _ G) as (k & Q). discriminate.
        + destruct (module_places_module _ _ _ _ _ F') as (k & Q). discriminate. }
    destruct M as (k & -> & M). rewrite M.
    assert (LK : (k < length (s_mods st))%nat).
    { apply mod_find_some, first_bound_bound in M. destruct M as [I _]. unfold module_places in I. cbn in I.
      destruct I as [[= <-]|I]; [exact EC|]. apply in_app_or in I. destruct I as [I|[[= <-]|[]]]; [|exact E0].
      apply in_map_iff in I. destruct I as (b & [= ->] & I). exact (EU _ _ I). }
    destruct (put_mod st k x v LK) as (B & O & Q1 & Q2). split; [auto|split; [auto|]].
    rewrite c38_lookup_order by auto. rewrite (AC _ st) by auto.
    rewrite (first_bound_update st _ (actual st e) x (InModule k) old v); auto.
Qed.
Print Assumptions c39_set.
(* False for a variable that only the environment's module binds, when another
   module is current: the variable keeps its value and a new local binding
   appears in the innermost frame. *)
Theorem c143_module_variable_refuted : forall st e x v m old a c,
  e_chain e = a :: c -> places_exist st e -> e_mod e = Some m ->
  first_bound st (map InFrame (e_chain e)) x = None -> bound st (InModule m) x = Some old ->
  first_bound st (module_places st (s_cur st)) x = None ->
  let st' := do_set st e x v in
  env_search st e x = Some old /\
  bound st' (InModule m) x = Some old /\ bound st (InFrame a) x = None /\ bound st' (InFrame a) x = Some v.
Proof.
  intros st e x v m old a c C (EF & EC & EM & E0 & EG & EU) M FF B FM st'.
  assert (LA : (a < length (s_frames st))%nat). { rewrite C in EF. inversion EF; auto. }
  assert (X0 : assoc x (frame_at st a) = None).
  { rewrite C in FF. cbn in FF. unfold frame_at. destruct (assoc x (nth a (s_frames st) [])); [discriminate|auto]. }
  assert (X : env_exist st e x = None). { unfold env_exist, search_entry. rewrite C. cbn. now rewrite X0. }
  assert (S1 : search_entry st e x true = None) by (apply search_chain_none; auto).
  split; [|split; [|split]].
  - unfold env_search. rewrite X, S1, M, mod_search_first. unfold module_places. cbn [app first_bound]. now rewrite B.
  - unfold st', do_set. rewrite S1. apply mod_find_none in FM. rewrite FM. unfold env_insert.
    replace (search_entry st e x false) with (@None (nat * val)). rewrite C.
    + destruct (add_frame st a x v LA X0) as (_ & O). rewrite O; auto. left. discriminate.
    + unfold search_entry. rewrite C. cbn. now rewrite X0.
  - cbn. exact X0.
  - unfold st', do_set. rewrite S1. apply mod_find_none in FM. rewrite FM. unfold env_insert.
    replace (search_entry st e x false) with (@None (nat * val)). rewrite C.
    + apply (add_frame st a x v LA X0).
    + unfold search_entry. rewrite C. cbn. now rewrite X0.
Qed.
Print Assumptions c143_module_variable_refuted.
Example c39_ex :
  (exists p old, first_bound ex_st (actual ex_st ex_env) (bs "a") = Some (p, old) /\ proper_env ex_env /\ places_exist ex_st ex_env) /\
  env_search (do_set ex_st ex_env (bs "a") (VInt 7)) ex_env (bs "a") = Some (VInt 7) /\
  env_search (do_set ex_st ex_env (bs "c") (VInt 7)) ex_env (bs "c") = Some (VInt 7) /\
  bound (do_set ex_st ex_menv (bs "d") (VInt 7)) (InModule 1) (bs "d") = Some (VInt 40).
Proof.
  split; [eexists; eexists; split; [vm_compute; reflexivity|split; [apply ex_env_proper|apply ex_exist; auto]]|].
  repeat split; vm_compute; reflexivity.
Qed.

(** * C40. define inside a body *)
(* In an environment without a module, (define x v) touches the innermost frame
   only, whatever the enclosing scopes bind, and the body then sees v. *)
Theorem c40_local_define : forall st e x v a b c,
  e_chain e = a :: b :: c -> e_mod e = None -> exists_place st (InFrame a) ->
  let st' := do_define_var st e x v in
  bound st' (InFrame a) x = Some v /\ only_changed st st' (InFrame a) x /\ env_search st' e x = Some v.
Proof.
  intros st e x v a b c C M LA st'.
  assert (H : bound st' (InFrame a) x = Some v /\ only_changed st st' (InFrame a) x).
  { unfold st', do_define_var. rewrite C, M. unfold env_insert, search_entry. rewrite C. cbn [firstn search_chain].
    destruct (assoc x (frame_at st a)) eqn:E.
    - destruct (put_frame st a x v LA) as (B & O & _). auto.
    - apply add_frame; auto. }
  destruct H as [B O]. split; [auto|split; [auto|]].
  unfold env_search, env_exist, search_entry. rewrite C. cbn [firstn search_chain]. unfold frame_at. cbn in B. now rewrite B.
Qed.
Print Assumptions c40_local_define.
(* In code loaded as a module the environment has a module, and (define x v)
   inside a body writes the module's variable. *)
Theorem c144_in_module_refuted : forall st e x v a b c m,
  e_chain e = a :: b :: c -> e_mod e = Some m -> exists_place st (InModule m) ->
  let st' := do_define_var st e x v in
  bound st' (InModule m) x = Some v /\ (forall k y, bound st' (InFrame k) y = bound st (InFrame k) y).
Proof.
  intros st e x v a b c m C M LM st'. unfold st', do_define_var. rewrite C, M.
  destruct (put_mod st m x v LM) as (B & O & _). split; auto.
Qed.
Print Assumptions c144_in_module_refuted.
(* The procedure form writes the current module's variable from any depth. *)
Theorem c144_inner_procedure_refuted : forall st x v, exists_place st (InModule (s_cur st)) ->
  let st' := do_define_proc st x v in
  bound st' (InModule (s_cur st)) x = Some v /\ (forall k y, bound st' (InFrame k) y = bound st (InFrame k) y).
Proof.
  intros st x v LM st'. destruct (put_mod st (s_cur st) x v LM) as (B & O & _). split; auto.
Qed.
Print Assumptions c144_inner_procedure_refuted.
Example c40_ex :
  let st' := do_define_var ex_st ex_env (bs "a") (VInt 7) in
  env_search st' ex_env (bs "a") = Some (VInt 7) /\ env_search st' (mkEnv [1; 0]%nat None) (bs "a") = Some (VInt 10) /\
  env_search (do_define_var ex_st ex_menv (bs "d") (VInt 7)) (mkEnv [0%nat] (Some 1%nat)) (bs "d") = Some (VInt 7).
Proof. repeat split; vm_compute; reflexivity. Qed.

(** * C42. Module variables *)
Theorem c42_module_lookup : forall st m x, x <> bs "%module-public-interface" ->
  module_ref st m x = match first_bound st (module_places st m) x with Some (_, v) => Ok v | None => Err end.
Proof.
  intros st m x N. unfold module_ref. destruct (beq_spec x (bs "%module-public-interface")); [contradiction|].
  rewrite mod_search_first. destruct (first_bound st (module_places st m) x) as [[p v]|]; auto.
Qed.
Print Assumptions c42_module_lookup.
(* A definition at the top level of module m (no global of that name) changes the
   variable x of m and no other binding anywhere; hence every module that neither
   is m, nor uses m, nor falls back to m, resolves x as before, and so does every
   module that has its own x. *)
Theorem c42_define_isolated : forall st x v, exists_place st (InModule (s_cur st)) -> bound st (InFrame 0) x = None ->
  let st' := do_define_var st g_env x v in
  bound st' (InModule (s_cur st)) x = Some v /\ only_changed st st' (InModule (s_cur st)) x /\
  (forall k y, ~ In (InModule (s_cur st)) (module_places st k) \/ y <> x -> mod_search st' k y = mod_search st k y) /\
  (forall k y w, k <> s_cur st -> bound st (InModule k) y = Some w -> mod_search st' k y = Some w).
Proof.
  intros st x v LM G st'. unfold st', do_define_var. cbn [e_chain g_env]. cbn in G. unfold frame_at. rewrite G.
  destruct (put_mod st (s_cur st) x v LM) as (B & O & Q1 & Q2). split; [auto|split; [auto|split]].
  - intros k y H. rewrite !mod_search_first. replace (module_places (ob_set st (s_cur st) x v) k) with (module_places st k).
    + rewrite (first_bound_ext st); auto. intros p I. apply O. destruct H as [H|H]; auto. left. intros ->. auto.
    + unfold module_places. unfold mod_at in Q2. now rewrite Q2.
  - intros k y w N H. rewrite mod_search_first. unfold module_places. cbn [app first_bound]. rewrite O, H; auto.
    left. congruence.
Qed.
Print Assumptions c42_define_isolated.
(* A module used later takes precedence over one used earlier. *)
Theorem c42_latest_use_first : forall st m u x v, exists_place st (InModule m) ->
  let i := match m_pub (nth u (s_mods st) (mkMod [] [] [] None)) with Some p => p | None => u end in
  bound st (InModule m) x = None -> bound st (InModule i) x = Some v ->
  mod_search (mod_use st m u) m x = Some v.
Proof.
  intros st m u x v LM i N B. rewrite mod_search_first. unfold module_places.
  assert (Q : forall q y, bound (mod_use st m u) q y = bound st q y).
  { intros q y. unfold mod_use. rewrite bound_set_mod by auto. destruct q as [a|k]; auto. destruct (Nat.eqb_spec m k) as [-> |]; auto. }
  cbn [app first_bound]. rewrite Q, N. unfold mod_use at 2. cbn [s_mods set_mod]. rewrite nth_upd by auto. rewrite Nat.eqb_refl.
  cbn [m_uses map app first_bound]. rewrite Q. unfold i in B. unfold mod_at. now rewrite B.
Qed.
Print Assumptions c42_latest_use_first.
Example c42_ex :
  module_ref ex_st 2 (bs "d") = Ok (VInt 40) /\ module_ref ex_st 2 (bs "c") = Ok (VInt 30) /\ module_ref ex_st 2 (bs "a") = Ok (VInt 41) /\
  module_ref ex_st 2 (bs "zz") = Err /\
  (let st' := do_define_var (set_current ex_st 1) g_env (bs "q") (VInt 5) in
   module_ref st' 1 (bs "q") = Ok (VInt 5) /\ module_ref st' 2 (bs "q") = Ok (VInt 5) /\ module_ref st' 0 (bs "q") = Err).
Proof. repeat split; vm_compute; reflexivity. Qed.

(** * C43. Exports *)
Lemma fold_exports : forall l s m p, m <> p -> (p < length (s_mods s))%nat ->
  let s' := fold_left (fun s x => match ob_lookup s m x with Some v => ob_set s p x v | None => s end) l s in
  (forall y, bound s' (InModule m) y = bound s (InModule m) y) /\ length (s_mods s') = length (s_mods s) /\
  (forall k y, k <> p -> bound s' (InModule k) y = bound s (InModule k) y) /\
  (forall k, m_pub (mod_at s' k) = m_pub (mod_at s k)) /\ (forall k, m_uses (mod_at s' k) = m_uses (mod_at s k)).
Proof.
  induction l as [|x l IH]; intros s m p N L s'; [repeat split|]. unfold s'. cbn [fold_left].
  destruct (ob_lookup s m x) as [v|]; [|apply IH; auto].
  assert (Q : length (s_mods (ob_set s p x v)) = length (s_mods s)) by (cbn; apply upd_length).
  destruct (IH (ob_set s p x v) m p N) as (A & B & C & D & E); [now rewrite Q|].
  assert (Z1 : forall k y, k <> p -> bound (ob_set s p x v) (InModule k) y = bound s (InModule k) y).
  { intros k y K. cbn. unfold ob_set. cbn. rewrite nth_upd by auto. destruct (Nat.eqb_spec p k); [congruence|auto]. }
  assert (Z2 : forall k, m_pub (mod_at (ob_set s p x v) k) = m_pub (mod_at s k) /\ m_uses (mod_at (ob_set s p x v) k) = m_uses (mod_at s k)).
  { intros k. unfold mod_at, ob_set. cbn. rewrite nth_upd by auto. destruct (Nat.eqb_spec p k) as [-> |]; auto. }
  repeat split.
  - intros y. rewrite A. apply Z1. auto.
  - congruence.
  - intros k y K. rewrite C by auto. apply Z1. auto.
  - intros k. rewrite D. apply Z2.
  - intros k. rewrite E. apply Z2.
Qed.
(* After x is exported from m, where its value is v, a module that uses m and has
   no x of its own sees v, the value at the time of the export. *)
Theorem c43_value_at_export : forall st m x v u,
  exists_place st (InModule m) -> exists_place st (InModule u) -> u <> m ->
  (forall p, m_pub (nth m (s_mods st) (mkMod [] [] [] None)) = Some p -> exists_place st (InModule p) /\ p <> m /\ p <> u) ->
  bound st (InModule m) x = Some v -> bound st (InModule u) x = None ->
  let st1 := mod_use (mod_export st m x) u m in
  mod_search st1 u x = Some v /\
  (* a later definition of x in m is not seen *)
  forall w, mod_search (ob_set st1 m x w) u x = Some v /\ bound (ob_set st1 m x w) (InModule m) x = Some w.
Proof.
  intros st m x v u LM LU UM PB BM BU st1.
  set (k := mod_at st m). set (sa := set_mod st m (mkMod (m_ob k) (m_uses k) (x :: m_exports k) (m_pub k))).
  assert (SA : forall j, j <> m -> nth j (s_mods sa) (mkMod [] [] [] None) = nth j (s_mods st) (mkMod [] [] [] None)).
  { intros j J. unfold sa. cbn. rewrite nth_upd by auto. destruct (Nat.eqb_spec m j); [congruence|auto]. }
  assert (SM : nth m (s_mods sa) (mkMod [] [] [] None) = mkMod (m_ob k) (m_uses k) (x :: m_exports k) (m_pub k)).
  { unfold sa. cbn. rewrite nth_upd by auto. now rewrite Nat.eqb_refl. }
  assert (SL : length (s_mods sa) = length (s_mods st)) by (unfold sa; cbn; apply upd_length).
  (* the interface *)
  assert (EP : exists p sb, ensure_pub sa m = (p, sb) /\ p <> m /\ p <> u /\ (p < length (s_mods sb))%nat /\
    (m < length (s_mods sb))%nat /\ (u < length (s_mods sb))%nat /\
    bound sb (InModule m) x = Some v /\ bound sb (InModule u) x = None /\ m_pub (mod_at sb m) = Some p).
  { unfold ensure_pub. assert (PM : m_pub (mod_at sa m) = m_pub k) by (unfold mod_at; now rewrite SM). rewrite PM.
    destruct (m_pub k) as [p|] eqn:PK.
    - destruct (PB p PK) as (LP & P1 & P2). exists p, sa. repeat split; auto; try (rewrite SL; auto; fail).
      + cbn [bound]. rewrite SM. exact BM.
      + cbn [bound]. rewrite SA by auto. exact BU.
    - cbn [new_module]. set (p := length (s_mods sa)).
      set (s1 := mkState (s_frames sa) (s_mods sa ++ [mkMod [] [] [] None]) (s_cur sa) (s_proms sa) (s_dyn sa)).
      set (s2 := set_mod s1 p (mkMod [] [] [] (Some m))).
      set (s3 := set_mod s2 m (mkMod (m_ob (mod_at sa m)) (m_uses (mod_at sa m)) (m_exports (mod_at sa m)) (Some p))).
      cbn in LM, LU.
      assert (PN : p <> m /\ p <> u) by (unfold p; rewrite SL; cbn in LM, LU; lia).
      assert (L1 : length (s_mods s1) = S (length (s_mods st))).
      { unfold s1. cbn [s_mods]. rewrite app_length, SL. cbn [length]. lia. }
      assert (L2 : length (s_mods s2) = S (length (s_mods st))) by (unfold s2; cbn [s_mods set_mod]; rewrite upd_length; auto).
      assert (L3 : length (s_mods s3) = S (length (s_mods st))) by (unfold s3; cbn [s_mods set_mod]; rewrite upd_length; auto).
      assert (PE : p = length (s_mods st)) by (unfold p; auto).
      assert (BM3 : bound s3 (InModule m) x = Some v).
      { unfold s3. cbn [bound s_mods set_mod]. rewrite nth_upd by lia. rewrite Nat.eqb_refl. cbn [m_ob]. unfold mod_at. rewrite SM. exact BM. }
      assert (BU3 : bound s3 (InModule u) x = None).
      { unfold s3. cbn [bound s_mods set_mod]. rewrite nth_upd by lia. destruct (Nat.eqb_spec m u); [congruence|]. unfold s2. cbn [s_mods set_mod]. rewrite nth_upd by lia.
        destruct (Nat.eqb_spec p u); [lia|]. unfold s1. cbn [s_mods]. rewrite app_nth1 by (rewrite SL; auto). rewrite SA by auto. exact BU. }
      assert (PM3 : m_pub (mod_at s3 m) = Some p).
      { unfold mod_at, s3. cbn [s_mods set_mod]. rewrite nth_upd by lia. now rewrite Nat.eqb_refl. }
      destruct (fold_exports (m_exports (mod_at sa m)) s3 m p) as (A & B & C & D & E); [destruct PN; auto|lia|].
      eexists p, _. split; [reflexivity|]. rewrite B, L3, D. destruct PN. repeat split; auto; try lia.
      + rewrite A. exact BM3.
      + rewrite C by auto. exact BU3. }
  destruct EP as (p & sb & EP & P1 & P2 & LP & LM2 & LU2 & B1 & B2 & PB2).
  assert (MX : mod_export st m x = ob_set sb p x v).
  { unfold mod_export. fold k. fold sa. rewrite EP. rewrite mod_search_first. unfold module_places. cbn [app first_bound]. now rewrite B1. }
  destruct (put_mod sb p x v LP) as (Q1 & Q2 & _ & _).
  assert (PB3 : m_pub (mod_at (ob_set sb p x v) m) = Some p).
  { unfold mod_at, ob_set. cbn. rewrite nth_upd by auto. destruct (Nat.eqb_spec p m); [congruence|exact PB2]. }
  assert (LEN : length (s_mods (ob_set sb p x v)) = length (s_mods sb)) by (cbn; apply upd_length).
  assert (RES : mod_search st1 u x = Some v).
  { unfold st1. rewrite MX. apply c42_latest_use_first.
    - cbn [exists_place]. rewrite LEN. auto.
    - rewrite Q2; auto. left. congruence.
    - unfold mod_at in PB3. rewrite PB3. exact Q1. }
  split; auto. intros w.
  assert (LM3 : (m < length (s_mods st1))%nat).
  { unfold st1, mod_use. cbn [s_mods set_mod]. rewrite upd_length, MX, LEN. auto. }
  destruct (put_mod st1 m x w LM3) as (R1 & R2 & _ & R4). split; auto.
  (* the uses list starts with the interface p, which is not m *)
  rewrite mod_search_first. unfold module_places. unfold mod_at in R4. rewrite R4. cbn [app first_bound].
  assert (U1 : bound st1 (InModule u) x = None).
  { unfold st1, mod_use. rewrite MX, bound_set_mod by (rewrite LEN; auto). rewrite Nat.eqb_refl.
    change (bound (ob_set sb p x v) (InModule u) x = None). rewrite Q2; auto. left. congruence. }
  rewrite R2, U1 by (left; congruence).
  assert (US : exists r, m_uses (nth u (s_mods st1) (mkMod [] [] [] None)) = p :: r).
  { unfold st1. rewrite MX. unfold mod_use. cbn [s_mods set_mod]. rewrite nth_upd by (rewrite LEN; auto). rewrite Nat.eqb_refl. cbn [m_uses]. rewrite PB3. eauto. }
  destruct US as (r & US). rewrite US. cbn [map app first_bound]. rewrite R2 by (left; congruence).
  assert (UP : bound st1 (InModule p) x = Some v).
  { unfold st1, mod_use. rewrite MX, bound_set_mod by (rewrite LEN; auto). destruct (Nat.eqb_spec u p); [congruence|]. exact Q1. }
  now rewrite UP.
Qed.
Print Assumptions c43_value_at_export.
(* The claim itself is therefore false: after (define x 1) (export x), a user of
   the module still gets 1 once the module has redefined x as 2. *)
Theorem c146_current_value_refuted : exists st m u x w,
  bound st (InModule m) x = Some w /\ In x (m_exports (nth m (s_mods st) (mkMod [] [] [] None))) /\
  exists v, mod_search st u x = Some v /\ v <> w.
Proof.
  pose (st1 := mod_use (mod_export ex_st 1 (bs "d")) 2 1).
  exists (ob_set st1 1 (bs "d") (VInt 99)), 1%nat, 2%nat, (bs "d"), (VInt 99).
  split; [vm_compute; reflexivity|]. split; [vm_compute; auto|]. exists (VInt 40). split; [vm_compute; reflexivity|discriminate].
Qed.
Print Assumptions c146_current_value_refuted.
Example c43_ex : exists_place ex_st (InModule 1) /\ exists_place ex_st (InModule 2) /\
  bound ex_st (InModule 1) (bs "d") = Some (VInt 40) /\ bound ex_st (InModule 2) (bs "d") = None.
Proof. cbn. repeat split; lia. Qed.

(** * C44. module-bound? *)
Theorem c44_module_bound : forall st m x, x <> bs "%module-public-interface" ->
  (module_bound st m x = true <-> exists v, module_ref st m x = Ok v /\ v <> VBool false).
Proof.
  intros st m x N. unfold module_bound, module_ref. destruct (beq_spec x (bs "%module-public-interface")); [contradiction|].
  destruct (mod_search st m x) as [v|]; cbn.
  - split.
    + intros T. exists v. split; auto. intros ->. discriminate.
    + intros (w & [= ->] & F). destruct w as [| |[|]| | | | | | | | | | | |]; auto.
  - split; [discriminate|]. intros (v & Q & _). discriminate.
Qed.
Print Assumptions c44_module_bound.
(* A variable whose value is #f counts as unbound. *)
Theorem c147_false_value_refuted : forall st m x, exists_place st (InModule m) -> x <> bs "%module-public-interface" ->
  let st' := ob_set st m x (VBool false) in
  module_ref st' m x = Ok (VBool false) /\ module_bound st' m x = false.
Proof.
  intros st m x L N st'. destruct (put_mod st m x (VBool false) L) as (B & _).
  assert (S1 : mod_search st' m x = Some (VBool false)).
  { rewrite mod_search_first. unfold module_places. cbn [app first_bound]. unfold st'. now rewrite B. }
  unfold module_ref, module_bound. destruct (beq_spec x (bs "%module-public-interface")); [contradiction|].
  now rewrite S1.
Qed.
Print Assumptions c147_false_value_refuted.
Example c44_ex : module_bound ex_st 2 (bs "d") = true /\ module_bound ex_st 0 (bs "d") = false /\
  module_bound (ob_set ex_st 1 (bs "d") (VBool false)) 1 (bs "d") = false.
Proof. repeat split; vm_compute; reflexivity. Qed.
