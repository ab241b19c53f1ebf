(** Proofs for C212: sessions and files. *)
From Coq Require Import String Lia.
From Verif Require Import Base NumModel ParseModel ParseSpec PrintModel ParseProperties EnvModel EvalModel ApiModel LangSpec LangProofs LangProofs2.
From Verif Require EnvProofs.
Local Open Scope string_scope.
Local Open Scope Z_scope.
Local Open Scope list_scope.

Definition rest (a b : state) : Prop :=
  s_frames b = s_frames a /\ s_mods b = s_mods a /\ s_cur b = s_cur a /\ s_proms b = s_proms a.
Definition left_as (s s3 : api) (st2 : state) : Prop :=
  rest st2 (a_st s3) /\ d_catch (s_dyn (a_st s3)) = d_catch (s_dyn (a_st s)).
Definition runs_as (prim : list Z -> list val -> pres) (go : nat -> aout) (x : val) (s : api) : Prop :=
  exists st1, rest (a_st s) st1 /\
    (forall st2 v, s_dyn st2 = s_dyn st1 -> exists s3, left_as s s3 st2 /\ a_key s3 = a_key s /\
       forall n, eval prim n g_env x st1 = Ret v st2 -> go n = AOk (Some v) s3) /\
    (forall st2, s_dyn st2 = s_dyn st1 -> exists s3, left_as s s3 st2 /\ a_key s3 = Some (bs "error") /\
       forall n, eval prim n g_env x st1 = err st2 -> go n = AOk None s3) /\
    (forall n, eval prim n g_env x st1 = OFuel -> go n = AFuel).

Lemma err_top A st id r : d_catch (s_dyn st) = (id, VBool true) :: r -> existsb (Nat.eqb id) (d_live (s_dyn st)) = true ->
  @err A st = Thrown id (sym "error") (VList [VStr []] false) st.
Proof. intros C L. unfold err, throw. rewrite C. cbn [find_handler]. now rewrite L. Qed.

Lemma note_rest w st : rest st (note_catch w st) /\ d_catch (s_dyn (note_catch w st)) = d_catch (s_dyn st).
Proof. unfold note_catch. destruct (list_eq_dec _ _ _); repeat split. Qed.

Lemma leb_false a : (a < 100)%nat -> 100 <=? Z.of_nat a = false.
Proof. intros. apply Z.leb_gt. lia. Qed.
Lemma eval_runs prim x s : (length (d_catch (s_dyn (a_st s))) < 100)%nat -> runs_as prim (fun n => pscm_eval prim n x s) x s.
Proof.
  intros R. exists (push_catch (VBool true) (a_st s)). split; [repeat split|]. split; [|split].
  - intros st2 v D. eexists. split; [|split]; cycle 2.
    + intros n E. unfold pscm_eval, guarded. rewrite (leb_false _ R). unfold lift, on_st. cbn [a_st a_key a_msg]. rewrite E. reflexivity.
    + unfold left_as, rest, on_st. cbn [a_st]. split; [repeat split|]. cbn. rewrite D. reflexivity.
    + reflexivity.
  - intros st2 D. eexists. split; [|split]; cycle 2.
    + intros n E. unfold pscm_eval, guarded. rewrite (leb_false _ R). unfold lift, on_st. cbn [a_st a_key a_msg]. rewrite E.
      rewrite (err_top _ st2 (d_next (s_dyn (a_st s))) (d_catch (s_dyn (a_st s)))).
      2:{ now rewrite D. } 2:{ rewrite D. cbn. now rewrite Nat.eqb_refl. }
      rewrite Nat.eqb_refl. reflexivity.
    + unfold left_as. cbn [a_st]. destruct (note_rest (d_wind (s_dyn (a_st s))) (pop_catch st2)) as ((A & B & C & E) & F).
      split; [repeat split; cbn; assumption|]. cbn [dead on_dyn set_dyn s_dyn d_catch]. rewrite F. cbn. rewrite D. reflexivity.
    + reflexivity.
  - intros n E. unfold pscm_eval, guarded. rewrite (leb_false _ R). unfold lift, on_st. cbn [a_st a_key a_msg]. now rewrite E.
Qed.
Lemma string_runs prim t d x s : (length (d_catch (s_dyn (a_st s))) < 99)%nat -> parse t = Ok d -> program d = Some x ->
  runs_as prim (fun n => pscm_eval_string prim n t s) x s.
Proof.
  intros R PT PX. 
  set (s0 := on_st (push_catch (VBool true)) s).
  assert (E0 : pscm_parse t s0 = AOk (Some x) (on_st (fun st' => dead (d_next (s_dyn (a_st s0))) (pop_catch st')) (on_st (push_catch (VBool true)) s0))).
  { unfold pscm_parse, guarded. rewrite leb_false by (cbn; lia). unfold read_one. rewrite PT, PX. reflexivity. }
  set (s1 := on_st (fun st' => dead (d_next (s_dyn (a_st s0))) (pop_catch st')) (on_st (push_catch (VBool true)) s0)) in *.
  assert (C1 : d_catch (s_dyn (a_st s1)) = (d_next (s_dyn (a_st s)), VBool true) :: d_catch (s_dyn (a_st s))) by reflexivity.
  destruct (eval_runs prim x s1) as (st1 & R1 & V & Er & Fu). { rewrite C1. cbn. lia. }
  assert (GO : forall n r s', pscm_eval prim n x s1 = AOk r s' ->
    pscm_eval_string prim n t s = AOk r (on_st (fun st' => dead (d_next (s_dyn (a_st s))) (pop_catch st')) s')).
  { intros n r s' E. unfold pscm_eval_string. unfold guarded at 1. rewrite leb_false by lia. fold s0. rewrite E0, E. reflexivity. }
  exists st1. split; [exact R1|]. split; [|split].
  - intros st2 v D. destruct (V st2 v D) as (s3 & (L1 & L2) & K & G). eexists. split; [|split; [|intros n E; exact (GO n _ _ (G n E))]].
    + split; [exact L1|]. cbn. rewrite L2, C1. reflexivity.
    + exact K.
  - intros st2 D. destruct (Er st2 D) as (s3 & (L1 & L2) & K & G). eexists. split; [|split; [|intros n E; exact (GO n _ _ (G n E))]].
    + split; [exact L1|]. cbn. rewrite L2, C1. reflexivity.
    + exact K.
  - intros n E. apply Fu in E. unfold pscm_eval_string. unfold guarded at 1. rewrite leb_false by lia. fold s0. now rewrite E0, E.
Qed.

Section Sessions.
Variable prim : list Z -> list val -> pres.
Hypothesis HN : numeric prim.
Variable free : list Z -> Prop.

Record inv (P : list fn) (s : api) : Prop := {
  i_base : base P free (a_st s);
  i_room : (length (d_catch (s_dyn (a_st s))) < 99)%nat;
  i_mods : s_mods (a_st s) <> [] }.
Lemma base_rest P a b : rest a b -> base P free a -> base P free b.
Proof.
  intros (F & M & C & Pr) B.
  assert (L : (0 < length (s_frames a))%nat). { pose proof (b_frames _ _ _ B). destruct (s_frames a); cbn; [congruence|lia]. }
  destruct B. unfold frame_at, ob_lookup, mod_at, env_search, env_exist, search_entry, mod_search, mod_find, ob_lookup, mod_at, frame_at in *.
  constructor; unfold frame_at, ob_lookup, mod_at, env_search, env_exist, search_entry, mod_search, mod_find, ob_lookup, mod_at, frame_at; rewrite ?F, ?M, ?C; auto.
  intros x U. specialize (b_free x U). cbn [e_chain e_mod g_env firstn search_chain] in *.
  assert (UL : forall l, uses_lookup b l x = uses_lookup a l x) by (induction l; cbn; [reflexivity|]; unfold ob_lookup, mod_at; rewrite M; now rewrite IHl).
  unfold frame_at in *. rewrite UL, F. exact b_free.
Qed.

Lemma exp_step P e w go s : Forall wf_fn P -> wf e -> inv P s -> ev P free [] e w -> runs_as prim go (code e) s ->
  exists N s', (forall n, (N <= n)%nat -> go n = AOk (answer w) s') /\ inv P s' /\
    a_key s' = match w with Some _ => a_key s | None => Some (bs "error") end.
Proof.
  intros WP W [B R M] E (st1 & R1 & V & Er & _).
  assert (B1 : base P free st1) by (eapply base_rest; eauto).
  assert (N0 : names_ok []) by (intros x z; discriminate).
  destruct (proj1 (follows prim P free HN WP) [] e w E W N0 st1 g_env _ B1 (okenv_global P free st1 B1)) as (N & st2 & E2 & H).
  pose proof E2 as (_ & _ & _ & M2 & _ & _ & D2).
  assert (B2 : base P free st2) by exact (ext_base P free st1 st2 E2 B1).
  assert (M1 : s_mods st2 <> []). { rewrite M2. destruct R1 as (_ & -> & _). exact M. }
  assert (K : forall s3, left_as s s3 st2 -> inv P s3).
  { intros s3 (L1 & L2). constructor; [eapply base_rest; eauto|now rewrite L2|]. destruct L1 as (_ & -> & _). exact M1. }
  destruct w as [z|].
  - destruct (V st2 (VInt z) D2) as (s3 & L & Ky & G). exists N, s3. split; [|split]; auto.
  - destruct (Er st2 D2) as (s3 & L & Ky & G). exists N, s3. split; [|split]; auto.
Qed.
Lemma fn_step P d go s : wf_fn d -> inv P s -> free (f_name d) -> ~ In (f_name d) (map f_name P) -> runs_as prim go (code_fn d) s ->
  exists s', (forall n, (1 <= n)%nat -> go n = AOk (Some VNone) s') /\ inv (P ++ [d]) s' /\ a_key s' = a_key s.
Proof.
  intros W [B R M] Fr NI (st1 & R1 & V & _ & _).
  assert (B1 : base P free st1) by (eapply base_rest; eauto).
  set (c := VProc (map VSym (f_params d)) false [code (f_body d)] g_env).
  set (st2 := ob_set st1 root (f_name d) c).
  assert (EV : forall n, (1 <= n)%nat -> eval prim n g_env (code_fn d) st1 = Ret VNone st2).
  { intros [|n] Hn; [lia|]. rewrite (eval_S prim). unfold code_fn, sym.
    rewrite (step_form prim n n g_env (bs "define") FDefine).
    - unfold st2, c. rewrite <- (b_cur _ _ _ B1). now destruct (f_params d).
    - apply (key_plain P free (length (s_frames st1)) st1 g_env [] (bs "define")); auto; [now apply (okenv_global P free)|cbn; tauto].
    - reflexivity. }
  assert (M1 : s_mods st1 <> []) by (destruct R1 as (_ & -> & _); exact M).
  assert (L1 : (0 < length (s_mods st1))%nat) by (destruct (s_mods st1); cbn; [congruence|lia]).
  assert (OB : forall u x, ob_lookup st2 u x = if Nat.eqb u root then (if beq (f_name d) x then Some c else ob_lookup st1 u x) else ob_lookup st1 u x).
  { intros u x. unfold st2, ob_set, ob_lookup, mod_at, set_mod. cbn [s_mods]. rewrite EnvProofs.nth_upd by exact L1. unfold root.
    rewrite (Nat.eqb_sym u 0). destruct (Nat.eqb 0 u) eqn:Q; [|reflexivity]. apply Nat.eqb_eq in Q as <-. cbn [m_ob]. apply EnvProofs.assoc_put. }
  assert (US : m_uses (mod_at st2 root) = m_uses (mod_at st1 root)).
  { unfold st2, ob_set, mod_at, set_mod. cbn [s_mods]. rewrite EnvProofs.nth_upd by exact L1. reflexivity. }
  assert (G0 : env_search st1 g_env (f_name d) = None) by (apply (b_free _ _ _ B1); split; auto).
  assert (B2 : base (P ++ [d]) free st2).
  { pose proof B1 as B1'. destruct B1. constructor; auto.
    - intros d' I. apply in_app_or in I as [I|[<-|[]]].
      + destruct (b_fn d' I) as (X & Y). split; [exact X|]. rewrite OB. cbn [Nat.eqb root]. rewrite beq_neq; [exact Y|].
        intros Q. apply NI. rewrite Q. now apply in_map.
      + split.
        * unfold env_search, env_exist, search_entry in G0. cbn [e_chain g_env firstn search_chain] in G0.
          destruct (assoc (f_name d) (frame_at st1 0)) eqn:A; [discriminate|exact A].
        * rewrite OB. cbn [Nat.eqb root]. now rewrite beq_refl.
    - intros x (Fx & Nx). assert (Ux : unknown P free x). { split; [exact Fx|]. intros I. apply Nx. rewrite map_app. apply in_or_app. now left. }
      assert (Nd : f_name d <> x). { intros <-. apply Nx. rewrite map_app. apply in_or_app. right. now left. }
      specialize (b_free x Ux). unfold env_search, env_exist, search_entry, mod_search, mod_find in *.
      cbn [e_chain e_mod g_env firstn search_chain] in *. change (frame_at st2 0) with (frame_at st1 0). change (s_cur st2) with (s_cur st1).
      rewrite b_cur in *. rewrite US.
      assert (O1 : forall u, ob_lookup st2 u x = ob_lookup st1 u x).
      { intros u. rewrite OB, beq_neq by exact Nd. now destruct (Nat.eqb u root). }
      assert (UL : forall l, uses_lookup st2 l x = uses_lookup st1 l x) by (induction l; cbn; [reflexivity|]; now rewrite O1, IHl).
      now rewrite UL, !O1. }
  destruct (V st2 VNone eq_refl) as (s3 & (L3 & L4) & Ky & G). exists s3. split; [|split]; auto.
  constructor.
  - eapply base_rest; eauto.
  - now rewrite L4.
  - destruct L3 as (_ & -> & _). unfold st2, ob_set, set_mod. cbn [s_mods]. intros Q. apply (f_equal (@length _)) in Q.
    rewrite EnvProofs.upd_length in Q. cbn in Q. lia.
Qed.

(** a sequence of computations, each from the state left by the one before *)
Fixpoint seq (gos : list (nat -> api -> aout)) (n : nat) (s : api) : option (list (option val) * api) :=
  match gos with
  | [] => Some ([], s)
  | g :: r => match g n s with AOk v s' => match seq r n s' with Some (vs, s2) => Some (v :: vs, s2) | None => None end | _ => None end
  end.
Definition does (go : nat -> api -> aout) (x : val) : Prop :=
  forall s, (length (d_catch (s_dyn (a_st s))) < 99)%nat -> runs_as prim (fun n => go n s) x s.
Definition key_after (ws : list (option Z)) (k : option (list Z)) : option (list Z) :=
  if existsb (fun w => match w with None => true | _ => false end) ws then Some (bs "error") else k.
Lemma exps_steps P es : Forall wf_fn P -> Forall wf es -> forall ws gos s, inv P s -> Forall2 (ev P free []) es ws ->
  Forall2 does gos (map code es) ->
  exists N s', (forall n, (N <= n)%nat -> seq gos n s = Some (map answer ws, s')) /\ inv P s' /\ a_key s' = key_after ws (a_key s).
Proof.
  intros WP WE. induction WE as [|e es W _ IH]; intros ws gos s I E G.
  - inversion E; subst. inversion G; subst. exists 0%nat, s. split; [reflexivity|split; [exact I|reflexivity]].
  - inversion E as [|? w ? ws' Ew Es]; subst. cbn [map] in G. inversion G as [|g ? gos' ? Gg Gs]; subst.
    destruct (exp_step P e w (fun n => g n s) s WP W I Ew (Gg s (i_room _ _ I))) as (N1 & s1 & H1 & I1 & K1).
    destruct (IH ws' gos' s1 I1 Es Gs) as (N2 & s2 & H2 & I2 & K2). exists (N1 + N2)%nat, s2. split; [|split; [exact I2|]].
    + intros n Hn. cbn [seq map]. rewrite H1, H2 by lia. reflexivity.
    + rewrite K2. unfold key_after. cbn [existsb]. rewrite K1. destruct w; cbn [orb]; [reflexivity|]. now destruct (existsb _ ws').
Qed.
Lemma fns_steps ds : Forall wf_fn ds -> forall P gos s, inv P s -> Forall free (map f_name ds) -> NoDup (map f_name (P ++ ds)) ->
  Forall2 does gos (map code_fn ds) ->
  exists s', (forall n, (1 <= n)%nat -> seq gos n s = Some (repeat (Some VNone) (length ds), s')) /\ inv (P ++ ds) s' /\ a_key s' = a_key s.
Proof.
  intros WD. induction WD as [|d ds W _ IH]; intros P gos s I F ND G.
  - inversion G; subst. exists s. rewrite app_nil_r. split; [reflexivity|split; [exact I|reflexivity]].
  - cbn [map] in *. inversion F; subst. inversion G as [|g ? gos' ? Gg Gs]; subst.
    assert (NI : ~ In (f_name d) (map f_name P)).
    { rewrite map_app in ND. cbn [map] in ND. intros X. apply NoDup_remove_2 in ND. apply ND. apply in_or_app. now left. }
    destruct (fn_step P d (fun n => g n s) s W I H1 NI (Gg s (i_room _ _ I))) as (s1 & X1 & I1 & K1).
    destruct (IH (P ++ [d]) gos' s1 I1 H2) as (s2 & X2 & I2 & K2); auto. { now rewrite <- app_assoc. }
    exists s2. rewrite <- app_assoc in I2. split; [|split; [exact I2|congruence]].
    intros n Hn. cbn [seq repeat length]. rewrite X1, X2 by lia. reflexivity.
Qed.
Lemma seq_app g1 g2 n s : seq (g1 ++ g2) n s =
  match seq g1 n s with Some (v1, s1) => match seq g2 n s1 with Some (v2, s2) => Some (v1 ++ v2, s2) | None => None end | None => None end.
Proof.
  revert s. induction g1 as [|g r IH]; intros s; cbn [app seq]; [now destruct (seq g2 n s) as [[? ?]|]|].
  destruct (g n s); auto. rewrite IH. destruct (seq r n s0) as [[? ?]|]; auto. now destruct (seq g2 n a) as [[? ?]|].
Qed.
Lemma all_steps P es ws g1 g2 s : Forall wf_fn P -> NoDup (map f_name P) -> Forall free (map f_name P) -> Forall wf es ->
  inv [] s -> Forall2 (ev P free []) es ws -> Forall2 does g1 (map code_fn P) -> Forall2 does g2 (map code es) ->
  exists N s', (forall n, (N <= n)%nat -> seq (g1 ++ g2) n s = Some (repeat (Some VNone) (length P) ++ map answer ws, s')) /\
    a_key s' = key_after ws (a_key s).
Proof.
  intros WP ND F WE I E G1 G2. destruct (fns_steps P WP [] g1 s I F ND G1) as (s1 & H1 & I1 & K1).
  destruct (exps_steps P es WP WE ws g2 s1 I1 E G2) as (N2 & s2 & H2 & I2 & K2). exists (1 + N2)%nat, s2.
  split; [|now rewrite K2, K1]. intros n Hn. rewrite seq_app, H1, H2 by lia. reflexivity.
Qed.
End Sessions.

Lemma session_seq prim ts n s : session prim n ts s = seq (map (fun t n s => pscm_eval_string prim n t s) ts) n s.
Proof. revert s. induction ts as [|t r IH]; intros s; cbn [session seq map]; [reflexivity|]. destruct (pscm_eval_string prim n t s); auto. now rewrite IH. Qed.
Lemma last_cons {A} (x : A) l d : last (x :: l) d = last l x.
Proof.
  revert x d. induction l as [|y l IH]; intros x d; [reflexivity|]. change (last (x :: y :: l) d) with (last (y :: l) d).
  now rewrite !IH.
Qed.
Lemma eval_all_seq prim xs n acc s vs s' : seq (map (fun x n s => pscm_eval prim n x s) xs) n s = Some (vs, s') ->
  eval_all prim n xs acc s = AOk (last vs acc) s'.
Proof.
  revert acc s vs. induction xs as [|x r IH]; intros acc s vs; cbn [eval_all seq map].
  - intros [= <- <-]. reflexivity.
  - destruct (pscm_eval prim n x s); try discriminate. destruct (seq _ n s0) as [[vs' s2]|] eqn:E; [|discriminate]. intros [= <- <-].
    rewrite (IH _ _ _ E). f_equal. symmetry. apply last_cons.
Qed.
Lemma inv_start s : ready s -> inv (unbound s) [] s.
Proof.
  intros [A B C D E F G]. constructor; auto. constructor; auto.
  - intros d [].
  - intros x (U & _). exact U.
Qed.
