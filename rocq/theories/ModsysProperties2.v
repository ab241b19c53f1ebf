(** C94-C96: what a module shows; the options of define-module; autoload. *)
From Coq Require Import String Lia.
From Verif Require Import Base ParseModel ParseProofs EnvModel EnvSpec EnvProofs ModsysModel ModsysSpec ModsysProofs ModsysProofs2 ModsysProofs3 ModsysProperties.
Local Open Scope string_scope.
Local Open Scope list_scope.
Notation "[ ]" := (@nil _) : list_scope.

Lemma mod_search_sees w m x : mod_search (w_st w) m x = sees w m x.
Proof. rewrite mod_search_first. unfold sees. destruct (first_bound _ _ _) as [[p v]|]; reflexivity. Qed.
Lemma user_ids w m : user_module w m <-> In m (ids w).
Proof.
  unfold user_module, names, ids. rewrite in_map_iff. split.
  - intros [n H]. exists (n, m). auto.
  - intros ([n k] & <- & H). exists n. auto.
Qed.
Lemma places_use w m u : (m < length (s_mods (w_st w)))%nat ->
  module_places (w_st (add_use m u w)) m = InModule m :: InModule (shown w u) :: tl (module_places (w_st w) m) /\
  (forall k, k <> m -> module_places (w_st (add_use m u w)) k = module_places (w_st w) k) /\
  (forall p x, bound (w_st (add_use m u w)) p x = bound (w_st w) p x).
Proof.
  intros L. unfold add_use, mod_use, shown. cbv zeta. cbn [with_st w_st]. unfold module_places.
  set (i := match m_pub (mod_at (w_st w) u) with Some p => p | None => u end).
  set (k0 := mkMod _ _ _ _). assert (M : forall j, nth j (s_mods (set_mod (w_st w) m k0)) nomod = if Nat.eqb m j then k0 else nth j (s_mods (w_st w)) nomod).
  { intros j. unfold set_mod. cbn [s_mods]. now apply nth_upd. }
  split; [|split].
  - rewrite M, Nat.eqb_refl. reflexivity.
  - intros k N. rewrite M. destruct (Nat.eqb_spec m k); [congruence|reflexivity].
  - intros [a|j] x; [reflexivity|]. cbn [bound]. rewrite M. destruct (Nat.eqb_spec m j) as [->|]; reflexivity.
Qed.
Lemma sees_use w m u x : (m < length (s_mods (w_st w)))%nat ->
  sees (add_use m u w) m x = match binds w m x with Some v => Some v | None =>
                             match binds w (shown w u) x with Some v => Some v | None => sees w m x end end.
Proof.
  intros L. destruct (places_use w m u L) as (P1 & _ & B). unfold sees. rewrite P1. cbn [first_bound]. rewrite !B.
  unfold binds. destruct (bound (w_st w) (InModule m) x) eqn:E1; [reflexivity|].
  destruct (bound (w_st w) (InModule (shown w u)) x) eqn:E2; [reflexivity|].
  rewrite (first_bound_ext (w_st w)) by auto. unfold module_places. cbn [tl first_bound]. now rewrite E1.
Qed.
Lemma sees_use_other w m u k x : (m < length (s_mods (w_st w)))%nat -> k <> m -> sees (add_use m u w) k x = sees w k x.
Proof.
  intros L N. destruct (places_use w m u L) as (_ & P & B). unfold sees. rewrite P by auto. rewrite (first_bound_ext (w_st w)) by auto. reflexivity.
Qed.

(** * C94. What using a module makes visible *)
(* The interface of a module binds exported names only, in every session. *)
Theorem c94_interface_only_exported : forall fs w m p x, reachable fs w -> user_module w m -> has_interface w m p ->
  binds w p x <> None -> exported w m x.
Proof.
  intros fs w m p x R U H B. assert (W := reachable_wf _ _ R). apply user_ids in U.
  destruct (wf_pub _ W m p U H) as (_ & _ & _ & D). apply D. apply assoc_dom. exact B.
Qed.
Print Assumptions c94_interface_only_exported.
(* Using a module n that has an interface: the current module sees the values of
   the interface (unless it has its own variable), before those of modules used
   earlier; the names n does not export mean what they meant before; no other
   module is affected, no file is loaded. *)
Theorem c94_use_shows_exports : forall fs w n u p w' fuel, reachable fs w -> n <> [] -> names w n u -> has_interface w u p ->
  top fs (S fuel) (FUse [DList n]) w = Done tt w' ->
  (forall x v, binds w p x = Some v -> binds w (current w) x = None -> sees w' (current w) x = Some v) /\
  (forall x, ~ exported w u x -> sees w' (current w) x = sees w (current w) x) /\
  (forall k x, k <> current w -> sees w' k x = sees w k x) /\
  loads (w_log w') = loads (w_log w).
Proof.
  intros fs w n u p w' fuel R NE N H Q. assert (W := reachable_wf _ _ R). destruct n as [|a n]; [congruence|].
  assert (LC := wf_lt _ W _ (wf_cur _ W)).
  assert (E : w' = add_use (current w) u (add_log w (EvPrint (a :: n)))).
  { unfold top in Q. cbn [run_form use_all sys o_resolve] in Q. unfold resolve_body in Q. rewrite (in_reg_find _ _ _ (wf_names _ W) N) in Q.
    cbn [bind] in Q. injection Q as <-. reflexivity. }
  subst w'. set (w1 := add_log w (EvPrint (a :: n))). assert (SH : shown w1 u = p). { unfold shown. change (w_st w1) with (w_st w). unfold has_interface in H. now rewrite H. }
  assert (SU := fun x => sees_use w1 (current w) u x LC). rewrite SH in SU.
  split; [|split; [|split]].
  - intros x v B1 B2. rewrite SU. change (binds w1 (current w) x) with (binds w (current w) x). change (binds w1 p x) with (binds w p x). now rewrite B2, B1.
  - intros x NX. rewrite SU. change (binds w1 p x) with (binds w p x). change (binds w1 (current w) x) with (binds w (current w) x).
    change (sees w1 (current w) x) with (sees w (current w) x).
    destruct (binds w (current w) x) as [v|] eqn:E1; [unfold sees, module_places; cbn [first_bound]; unfold binds in E1; now rewrite E1|].
    destruct (binds w p x) as [v|] eqn:E2; [|reflexivity]. exfalso. apply NX. eapply c94_interface_only_exported; eauto.
    + exists (a :: n). exact N.
    + rewrite E2. discriminate.
  - intros k x K. now apply (sees_use_other w1 (current w) u k x LC).
  - unfold w1. cbn [add_use with_st add_log w_log]. rewrite loads_app. apply app_nil_r.
Qed.
Print Assumptions c94_use_shows_exports.
Lemma fill_keeps m p l : forall st, 
  (forall q x, q <> InModule p -> bound (fold_left (fill m p) l st) q x = bound st q x) /\
  (forall k, m_uses (mod_at (fold_left (fill m p) l st) k) = m_uses (mod_at st k)) /\
  (forall k, m_exports (mod_at (fold_left (fill m p) l st) k) = m_exports (mod_at st k)) /\
  (forall k, m_pub (mod_at (fold_left (fill m p) l st) k) = m_pub (mod_at st k)) /\
  s_cur (fold_left (fill m p) l st) = s_cur st /\ length (s_mods (fold_left (fill m p) l st)) = length (s_mods st).
Proof.
  induction l as [|x l IH]; intros st; cbn [fold_left]; [auto 10|]. destruct (IH (fill m p st x)) as (A & B & C & D & E & F).
  assert (G : (forall q y, q <> InModule p -> bound (fill m p st x) q y = bound st q y) /\
    (forall k, m_uses (mod_at (fill m p st x) k) = m_uses (mod_at st k)) /\
    (forall k, m_exports (mod_at (fill m p st x) k) = m_exports (mod_at st k)) /\
    (forall k, m_pub (mod_at (fill m p st x) k) = m_pub (mod_at st k)) /\
    s_cur (fill m p st x) = s_cur st /\ length (s_mods (fill m p st x)) = length (s_mods st)).
  { unfold fill. destruct (ob_lookup st m x) as [v|]; [|auto 10].
    destruct (Nat.ltb_spec p (length (s_mods st))) as [L|L].
    - destruct (put_mod st p x v L) as (_ & O & _). split; [intros q y Q; apply O; auto|].
      assert (M : forall j, mod_at (ob_set st p x v) j = if Nat.eqb p j then mkMod (put x v (m_ob (mod_at st p))) (m_uses (mod_at st p)) (m_exports (mod_at st p)) (m_pub (mod_at st p)) else mod_at st j).
      { intros j. unfold ob_set. cbv zeta. rewrite mod_at_set by auto. reflexivity. }
      split; [|split; [|split; [|split]]]; try (intros k; rewrite M; destruct (Nat.eqb_spec p k) as [->|]; reflexivity); [reflexivity|].
      unfold ob_set, set_mod. cbn. apply upd_length.
    - replace (ob_set st p x v) with st; [auto 10|]. unfold ob_set, set_mod. rewrite upd_out by auto. destruct st; reflexivity. }
  destruct G as (A1 & B1 & C1 & D1 & E1 & F1).
  split; [intros q y Q; rewrite A, A1; auto|]. split; [intros k; now rewrite B|]. split; [intros k; now rewrite C|]. split; [intros k; now rewrite D|].
  split; congruence.
Qed.
Lemma ensure_pub_keeps w m : wf w -> In m (ids w) ->
  let '(p, st2) := ensure_pub (w_st w) m in
  (forall q x, q <> InModule p -> bound st2 q x = bound (w_st w) q x) /\
  (forall k, m_uses (mod_at st2 k) = m_uses (md w k)) /\
  (forall k, m_exports (mod_at st2 k) = m_exports (md w k)) /\
  m_pub (mod_at st2 m) = Some p /\ (m_pub (md w m) <> None -> st2 = w_st w) /\
  (m_pub (md w m) = None -> p = length (s_mods (w_st w))) /\
  s_cur st2 = s_cur (w_st w) /\ (length (s_mods (w_st w)) <= length (s_mods st2))%nat /\ (p < length (s_mods st2))%nat.
Proof.
  intros W I. unfold ensure_pub. fold (md w m). destruct (m_pub (md w m)) as [p|] eqn:P.
  - destruct (wf_pub _ W m p I P) as (LP & _). repeat split; auto. discriminate.
  - cbn [new_module]. destruct (make_iface_wf m w W I P) as (W1 & E1 & P1 & X1 & O1).
    destruct (fill_keeps m (length (s_mods (w_st w))) (m_exports (md w m)) (w_st (make_iface m w))) as (A & B & C & D & E & F).
    change (fold_left _ (m_exports (md w m)) _) with (fold_left (fill m (length (s_mods (w_st w)))) (m_exports (md w m)) (w_st (make_iface m w))).
    assert (LN : length (s_mods (w_st (make_iface m w))) = S (length (s_mods (w_st w)))).
    { unfold make_iface, set_mod, new_module. cbn [with_st w_st s_mods snd]. rewrite !upd_length, app_length. cbn. lia. }
    split; [|split; [|split; [|split; [|split; [|split; [|split; [|split]]]]]]].
    + intros q x Q. rewrite A by auto. destruct q as [a|j]; [reflexivity|]. cbn [bound].
      change (nth j (s_mods (w_st (make_iface m w))) nomod) with (md (make_iface m w) j). now rewrite O1.
    + intros k. rewrite B. change (m_uses (md (make_iface m w) k) = m_uses (md w k)).
      unfold md at 1, make_iface. cbn [with_st w_st]. cbv zeta.
      assert (LM := wf_lt _ W _ I).
      rewrite mod_at_set by (unfold set_mod, new_module; cbn [s_mods snd]; rewrite upd_length, app_length; cbn; lia).
      destruct (Nat.eqb_spec m k) as [->|]; [reflexivity|].
      rewrite mod_at_set by (unfold new_module; cbn [s_mods snd]; rewrite app_length; cbn; lia).
      destruct (Nat.eqb_spec (length (s_mods (w_st w))) k) as [<-|]; [unfold md; now rewrite mod_at_out|now rewrite mod_at_new].
    + intros k. rewrite C. apply X1.
    + rewrite D. exact P1.
    + congruence.
    + reflexivity.
    + rewrite E. reflexivity.
    + rewrite F, LN. lia.
    + rewrite F, LN. lia.
Qed.
Lemma places_lt w k q : wf w -> In k (ids w) -> In q (module_places (w_st w) k) -> exists j, q = InModule j /\ (j < length (s_mods (w_st w)))%nat.
Proof.
  intros W I H. unfold module_places in H. destruct H as [<-|H]; [exists k; split; [auto|apply wf_lt; auto]|].
  apply in_app_or in H. destruct H as [H|[<-|[]]]; [|exists 0%nat; split; [auto|apply wf_lt, wf_root; auto]].
  apply in_map_iff in H. destruct H as (u & <- & H). exists u. split; [auto|]. destruct (wf_uses _ W k u I H) as [Q|(b & Q1 & Q2)].
  - apply wf_lt; auto.
  - destruct (wf_pub _ W _ _ Q1 Q2) as (L & _). exact L.
Qed.
(* exporting x from m: the whole effect, when m sees x or no autoload lists x *)
Lemma export1_effect fs k m x w : wf w -> In m (ids w) -> (sees w m x = None -> take_auto m x (w_auto w) = None) ->
  exists w' p, export1 (sys fs (S k)) m x w = Done tt w' /\ wf w' /\ ext w w' /\
    m_pub (md w' m) = Some p /\ (m_pub (md w m) = None -> p = length (s_mods (w_st w))) /\
    m_exports (md w' m) = x :: m_exports (md w m) /\ (forall j, m_uses (md w' j) = m_uses (md w j)) /\
    w_reg w' = w_reg w /\ w_auto w' = w_auto w /\ w_log w' = w_log w /\ current w' = current w /\
    (forall q y, q <> InModule p -> bound (w_st w') q y = bound (w_st w) q y) /\
    (forall v, sees w m x = Some v -> binds w' p x = Some v) /\
    (m_pub (md w m) <> None -> forall y, y <> x -> binds w' p y = binds w p y).
Proof.
  intros W I TA. destruct (note_export_wf m x w W I) as (W1 & E1 & X1 & P1 & O1). set (w1 := note_export m x w) in *.
  assert (KP := ensure_pub_keeps w1 m W1 I). assert (EW := ensure_pub_world m w1 I W1).
  assert (U1 : forall j, m_uses (md w1 j) = m_uses (md w j)).
  { intros j. unfold w1, md at 1, note_export. cbn [with_st w_st]. cbv zeta. rewrite mod_at_set by (apply wf_lt; auto).
    destruct (Nat.eqb_spec m j) as [->|]; reflexivity. }
  assert (XM : m_exports (md w1 m) = x :: m_exports (md w m)).
  { unfold w1, md at 1, note_export. cbn [with_st w_st]. cbv zeta. rewrite mod_at_set by (apply wf_lt; auto). now rewrite Nat.eqb_refl. }
  assert (L1 : length (s_mods (w_st w1)) = length (s_mods (w_st w))) by (unfold w1; cbn; apply upd_length).
  assert (B1 : forall q y, bound (w_st w1) q y = bound (w_st w) q y).
  { intros [a|j] y; [reflexivity|]. cbn [bound]. change (nth j (s_mods (w_st w1)) nomod) with (md w1 j). now rewrite O1. }
  unfold export1. cbv zeta. change (set_mod (w_st w) m _) with (w_st w1).
  destruct (ensure_pub (w_st w1) m) as [p st2]. destruct KP as (K1 & K2 & K3 & K4 & K5 & K6 & K7 & K8 & K9). destruct EW as (W2 & E2 & P2).
  change (with_st w1 st2) with (with_st w st2) in *. set (w2 := with_st w st2) in *.
  assert (U2 : forall j, m_uses (md w2 j) = m_uses (md w j)) by (intros j; unfold w2, md; cbn [with_st w_st]; rewrite K2; apply U1).
  assert (PL : forall j, module_places st2 j = module_places (w_st w) j).
  { intros j. unfold module_places. change (nth j (s_mods st2) nomod) with (md w2 j). now rewrite U2. }
  assert (SE : sees w2 m x = sees w m x).
  { unfold sees. change (w_st w2) with st2. rewrite PL. f_equal. apply first_bound_ext. intros q Hq. rewrite <- B1.
    destruct (m_pub (md w1 m)) as [pp|] eqn:PM; [rewrite K5 by congruence; reflexivity|].
    apply K1. intros ->. destruct (places_lt w m _ W I Hq) as (j & [= <-] & LT). specialize (K6 eq_refl). lia. }
  assert (EX : ext w w2) by (eapply ext_trans; [exact W|exact E1|exact E2]).
  assert (ID : In m (ids w2)) by exact I.
  cbn [sys o_search]. unfold search_body. rewrite mod_search_sees. rewrite SE.
  assert (PN : m_pub (md w m) = None -> p = length (s_mods (w_st w))). { intros Q. rewrite <- L1. apply K6. rewrite P1. exact Q. }
  destruct (sees w m x) as [v|] eqn:SV.
  - cbn [bind]. assert (LP : (p < length (s_mods st2))%nat) by exact K9.
    destruct (put_mod st2 p x v LP) as (B & OC & Q1 & Q2).
    assert (S2 : ob_step w2 (ob_set (w_st w2) p x v)).
    { apply ob_set_step; auto. right. right. exists m. split; [exact I|]. split; [exact K4|].
      unfold w2, md. cbn [with_st w_st]. rewrite K3. exact X1. }
    destruct (ob_step_wf _ _ W2 S2) as [W3 E3]. change (with_st w2 (ob_set (w_st w2) p x v)) with (with_st w (ob_set st2 p x v)) in *.
    exists (with_st w (ob_set st2 p x v)), p. split; [reflexivity|]. split; [exact W3|]. split; [eapply ext_trans; [exact W|exact EX|exact E3]|].
    split; [change (m_pub (mod_at (ob_set st2 p x v) m) = Some p); rewrite (os_pub _ _ S2); exact K4|]. split; [exact PN|].
    split; [change (m_exports (mod_at (ob_set st2 p x v) m) = x :: m_exports (md w m)); rewrite (os_exports _ _ S2); unfold w2, md; cbn [with_st w_st]; rewrite K3; exact XM|].
    split; [intros j; change (m_uses (mod_at (ob_set st2 p x v) j) = m_uses (md w j)); rewrite (os_uses _ _ S2); apply U2|].
    split; [reflexivity|]. split; [reflexivity|]. split; [reflexivity|]. split; [exact K7|]. split.
    + intros q y Q. change (bound (ob_set st2 p x v) q y = bound (w_st w) q y). rewrite OC by auto. rewrite K1 by auto. apply B1.
    + split; [intros u [= <-]; exact B|]. intros Q y NY. unfold binds. change (bound (ob_set st2 p x v) (InModule p) y = bound (w_st w) (InModule p) y).
      rewrite OC by auto. rewrite <- B1. rewrite K5; [reflexivity|]. now rewrite P1.
  - change (w_auto w2) with (w_auto w). rewrite (TA eq_refl). cbn [bind].
    exists w2, p. split; [reflexivity|]. split; [exact W2|]. split; [exact EX|].
    split; [exact K4|]. split; [exact PN|]. split; [unfold w2, md; cbn [with_st w_st]; rewrite K3; exact XM|]. split; [exact U2|].
    split; [reflexivity|]. split; [reflexivity|]. split; [reflexivity|]. split; [exact K7|]. split.
    + intros q y Q. change (bound st2 q y = bound (w_st w) q y). rewrite K1 by auto. apply B1.
    + split; [discriminate|]. intros Q y NY. unfold binds. change (bound st2 (InModule p) y = bound (w_st w) (InModule p) y).
      rewrite <- B1. rewrite K5; [reflexivity|]. now rewrite P1.
Qed.
(* (export x): the module has an interface, and the interface gives x the value the
   module sees at that moment. *)
Theorem c94_export : forall fs w x v fuel, reachable fs w -> sees w (current w) x = Some v ->
  exists w' p, top fs (S fuel) (FExport [sym x]) w = Done tt w' /\ exported w' (current w) x /\
    has_interface w' (current w) p /\ binds w' p x = Some v /\ (forall k, uses w' k = uses w k) /\ w_log w' = w_log w.
Proof.
  intros fs w x v fuel R S. assert (W := reachable_wf _ _ R).
  destruct (export1_effect fs fuel (current w) x w W (wf_cur _ W)) as (w' & p & E & W' & X & A1 & A2 & A3 & A4 & A5 & A6 & A7 & A8 & A9 & A10 & _); [congruence|].
  exists w', p. unfold top. cbn [run_form export_all sym]. unfold current in E. rewrite E. cbn [bind export_all].
  split; [reflexivity|]. split; [unfold exported; change (nth _ (s_mods (w_st w')) nomod) with (md w' (current w)); rewrite A3; now left|].
  split; [exact A1|]. split; [now apply A10|]. split; [exact A4|exact A7].
Qed.
Print Assumptions c94_export.
(* A module that has exported nothing hides nothing: everything it defines, now,
   is visible to its users. *)
Theorem c97_no_exports_refuted : forall fs w n u w' fuel x v, reachable fs w -> n <> [] -> names w n u ->
  (forall p, ~ has_interface w u p) -> top fs (S fuel) (FUse [DList n]) w = Done tt w' ->
  binds w u x = Some v -> binds w (current w) x = None -> sees w' (current w) x = Some v.
Proof.
  intros fs w n u w' fuel x v R NE N NI Q B1 B2. assert (W := reachable_wf _ _ R). destruct n as [|a n]; [congruence|].
  assert (LC := wf_lt _ W _ (wf_cur _ W)).
  assert (E : w' = add_use (current w) u (add_log w (EvPrint (a :: n)))).
  { unfold top in Q. cbn [run_form use_all sys o_resolve] in Q. unfold resolve_body in Q. rewrite (in_reg_find _ _ _ (wf_names _ W) N) in Q.
    cbn [bind] in Q. injection Q as <-. reflexivity. }
  subst w'. set (w1 := add_log w (EvPrint (a :: n))).
  rewrite (sees_use w1 (current w) u x LC). assert (SH : shown w1 u = u).
  { unfold shown. change (w_st w1) with (w_st w). destruct (m_pub _) as [p|] eqn:E; [|reflexivity]. exfalso. eapply NI. exact E. }
  rewrite SH. change (binds w1 (current w) x) with (binds w (current w) x). change (binds w1 u x) with (binds w u x). now rewrite B2, B1.
Qed.
Print Assumptions c97_no_exports_refuted.
(* Exporting later does not hide what was shown before: a module used while it had
   no interface (as in a circular use) goes on showing all its variables, also those
   defined afterwards. *)
Theorem c97_late_export_refuted : exists fs w a b x, reachable fs w /\ names w [ASym (bs "a")] a /\ names w [ASym (bs "b")] b /\
  has_interface w a 3 /\ ~ exported w a x /\ binds w a x = Some (VInt 7) /\ sees w b x = Some (VInt 7).
Proof.
  set (na := [ASym (bs "a")]). set (nb := [ASym (bs "b")]).
  exists [(bs "a.scm", [FUse [DList nb]; FDefine (bs "secret") (RVal (VInt 7)); FDefinePublic (bs "x") (RVal (VInt 1))]); (bs "b.scm", [FUse [DList na]])].
  eexists. exists 1%nat, 2%nat, (bs "secret"). split.
  - exists [], [FResolve na]. eapply (session_step _ _ [] _ _ 5); [apply session_start|]. left. exists tt. vm_compute. reflexivity.
  - split; [vm_compute; auto|]. split; [vm_compute; auto|]. split; [vm_compute; reflexivity|]. split; [|split; vm_compute; reflexivity].
    vm_compute. intros [H|[]]. discriminate.
Qed.
Print Assumptions c97_late_export_refuted.
Example c94_ex :
  let w := run_top ex_fs [ex_path; FResolve ex_a] (init_world []) in
  let w' := run_top ex_fs [FUse [DList ex_b]] w in
  names w ex_b 2 /\ has_interface w 2 3 /\ binds w 3 (bs "y") = Some (VInt 2) /\ ~ exported w 2 (bs "hidden") /\
  sees w' 0 (bs "y") = Some (VInt 2) /\ sees w' 0 (bs "hidden") = None /\ sees w 0 (bs "y") = None.
Proof.
  split; [vm_compute; auto|]. split; [vm_compute; reflexivity|]. split; [vm_compute; reflexivity|]. split; [vm_compute; intros [H|[]]; discriminate|].
  split; [vm_compute; reflexivity|]. split; vm_compute; reflexivity.
Qed.

(** * C95. The options of define-module *)
Lemma opts_uses fs k m us : forall rest w, wf w -> In m (ids w) -> (forall n, In n us -> n <> [] /\ exists u, names w n u) ->
  exists w', do_opts (sys fs (S k)) m false (use_options us ++ rest) w = do_opts (sys fs (S k)) m false rest w' /\
    wf w' /\ w_reg w' = w_reg w /\ w_auto w' = w_auto w /\ w_log w' = w_log w /\ current w' = current w /\
    length (s_mods (w_st w')) = length (s_mods (w_st w)) /\
    (forall j, m_pub (md w' j) = m_pub (md w j)) /\ (forall j, m_exports (md w' j) = m_exports (md w j)) /\
    (forall q x, bound (w_st w') q x = bound (w_st w) q x) /\
    (forall us', map (fun n => reg_find n (w_reg w)) us = map Some us' -> uses w' m = rev (map (shown w) us') ++ uses w m).
Proof.
  induction us as [|n us IH]; intros rest w W I H.
  - exists w. do 10 (split; [auto; fail|]). intros [|u0 us0] E; [reflexivity|discriminate].
  - destruct (H n (or_introl eq_refl)) as (NE & u & N). destruct n as [|a n]; [congruence|].
    assert (RF := in_reg_find _ _ _ (wf_names _ W) N).
    destruct (add_use_wf m u w W I (in_reg_ids _ _ _ N)) as [W1 E1].
    destruct (IH rest (add_use m u w) W1 I) as (w' & A0 & A1 & A2 & A3 & A4 & A5 & A6 & A7 & A8 & A9 & A10).
    { intros n0 H0. apply H. now right. }
    assert (LM := wf_lt _ W _ I). destruct (places_use w m u LM) as (P1 & _ & B1).
    assert (M : forall j, md (add_use m u w) j = if Nat.eqb m j then mkMod (m_ob (md w m)) (shown w u :: m_uses (md w m)) (m_exports (md w m)) (m_pub (md w m)) else md w j).
    { intros j. unfold md, add_use, mod_use. cbn [with_st w_st]. cbv zeta. now rewrite mod_at_set by auto. }
    assert (MP : forall j, m_pub (md (add_use m u w) j) = m_pub (md w j)) by (intros j; rewrite M; destruct (Nat.eqb_spec m j) as [->|]; reflexivity).
    exists w'. split; [|split; [|split; [|split; [|split; [|split; [|split; [|split; [|split; [|split]]]]]]]]]; auto.
    + rewrite <- A0. change (use_options ((a :: n) :: us) ++ rest) with (sym (bs "use-module") :: DList (a :: n) :: use_options us ++ rest).
      unfold sym at 1. cbn [do_opts]. rewrite beq_refl. cbn [sys o_resolve]. unfold resolve_body. rewrite RF. reflexivity.
    + rewrite A6. cbn. apply upd_length.
    + intros j. now rewrite A7.
    + intros j. rewrite A8, M. destruct (Nat.eqb_spec m j) as [->|]; reflexivity.
    + intros q x. now rewrite A9.
    + intros us' E. destruct us' as [|u' us']; [discriminate|]. cbn [map] in E. injection E as Eu E. rewrite RF in Eu. injection Eu as <-.
      rewrite (A10 us' E). cbn [map rev]. rewrite <- app_assoc. cbn [app]. f_equal.
      * f_equal. apply map_ext. intros j. unfold shown. change (nth j (s_mods (w_st (add_use m u w))) nomod) with (md (add_use m u w) j). now rewrite MP.
      * unfold uses. change (nth m (s_mods (w_st (add_use m u w))) nomod) with (md (add_use m u w) m). rewrite M, Nat.eqb_refl. reflexivity.
Qed.
Lemma opts_export_app fs k m ss : forall w, do_opts (sys fs (S k)) m true (map sym ss) w = export_all (sys fs (S k)) m (map sym ss) w.
Proof.
  induction ss as [|x ss IH]; intros w; [reflexivity|]. cbn [map sym do_opts export_all]. destruct (export1 (sys fs (S k)) m x w); cbn [bind]; auto.
Qed.
Lemma take_auto_none m x l : (forall s, ~ In (m, s) l) -> take_auto m x l = None.
Proof.
  induction l as [|[k [n xs]] l IH]; intros H; [reflexivity|]. cbn [take_auto]. destruct (Nat.eqb_spec k m) as [->|N].
  - exfalso. eapply H. now left.
  - cbn [andb]. rewrite IH; [reflexivity|]. intros s Hs. eapply H. right. exact Hs.
Qed.
Lemma export_all_effect fs k m ss : forall w, wf w -> In m (ids w) -> (forall s, ~ In (m, s) (w_auto w)) ->
  (forall p, m_pub (md w m) = Some p -> ~ In (InModule p) (module_places (w_st w) m)) ->
  exists w', export_all (sys fs (S k)) m (map sym ss) w = Done tt w' /\ wf w' /\
    w_reg w' = w_reg w /\ w_auto w' = w_auto w /\ w_log w' = w_log w /\ current w' = current w /\
    (forall j, m_uses (md w' j) = m_uses (md w j)) /\
    (forall x, In x (m_exports (md w' m)) <-> In x ss \/ In x (m_exports (md w m))) /\
    (ss = [] -> w' = w) /\
    (forall p, m_pub (md w' m) = Some p -> ~ In (InModule p) (module_places (w_st w) m)) /\
    (forall x v, sees w m x = Some v -> sees w' m x = Some v /\ 
       (In x ss \/ (exists p, m_pub (md w m) = Some p /\ binds w p x = Some v) -> exists p, m_pub (md w' m) = Some p /\ binds w' p x = Some v)).
Proof.
  induction ss as [|x ss IH]; intros w W I NA NP.
  - exists w. cbn [map export_all]. do 7 (split; [auto; fail|]). split; [intros x; cbn; tauto|]. split; [auto|]. split; [exact NP|].
    intros x v S0. split; [exact S0|]. intros [[]|Q]. exact Q.
  - destruct (export1_effect fs k m x w W I) as (w1 & p & E & W1 & X & A1 & A2 & A3 & A4 & A5 & A6 & A7 & A8 & A9 & A10 & A11).
    { intros _. now apply take_auto_none. }
    assert (PL : module_places (w_st w1) m = module_places (w_st w) m).
    { unfold module_places. change (nth m (s_mods (w_st w1)) nomod) with (md w1 m). now rewrite A4. }
    assert (PP : ~ In (InModule p) (module_places (w_st w) m)).
    { destruct (m_pub (md w m)) as [p0|] eqn:Q.
      - assert (p0 = p) by (assert (Q1 := ext_pub _ _ X _ _ I Q); congruence). subst. auto.
      - intros H. destruct (places_lt w m _ W I H) as (j & [= <-] & L). rewrite (A2 eq_refl) in L. lia. }
    assert (S1 : forall y, sees w1 m y = sees w m y).
    { intros y. unfold sees. rewrite PL. f_equal. apply first_bound_ext. intros q Hq. apply A9. intros ->. auto. }
    destruct (IH w1 W1) as (w' & B0 & B1 & B2 & B3 & B4 & B5 & B6 & B7 & B8 & B9 & B10).
    { unfold ids in *. now rewrite A5. } { now rewrite A6. } { intros p1 Q. rewrite PL. congruence. }
    exists w'. split; [|split; [|split; [|split; [|split; [|split; [|split; [|split; [|split; [|split]]]]]]]]]; auto.
    + cbn [map sym export_all]. rewrite E. exact B0.
    + congruence.
    + congruence.
    + congruence.
    + congruence.
    + intros j. now rewrite B6, A4.
    + intros y. rewrite B7, A3. cbn [In]. tauto.
    + discriminate.
    + intros p1 Q. rewrite <- PL. auto.
    + intros y v SV. rewrite <- S1 in SV. destruct (B10 y v SV) as [C1 C2]. split; [auto|]. intros Q. apply C2.
      destruct Q as [[<-|Q]|(p0 & Q1 & Q2)]; [right; exists p; split; [exact A1|apply A10; now rewrite <- S1]|auto|].
      right. exists p0. assert (p0 = p) by (assert (Q3 := ext_pub _ _ X _ _ I Q1); congruence). subst p0. split; [exact A1|].
      destruct (beq_spec y x) as [->|NE]; [apply A10; now rewrite <- S1|]. rewrite A11; auto. congruence.
Qed.
Lemma sees_enter : forall m w j x, sees (enter m w) j x = sees w j x.
Proof.
  intros. unfold sees. f_equal. change (module_places (w_st (enter m w)) j) with (module_places (w_st w) j).
  apply first_bound_ext. intros [p|p] _; reflexivity.
Qed.
(* #:use-module n ... #:export x ...  (the exports last, not in parentheses), for a
   new module and modules that are already there: the new module is current, it uses
   exactly the given modules, the last one first, it exports exactly the given
   names, and its interface gives the imported ones their values; no file is
   loaded. *)
Theorem c95_clauses : forall fs w n us us' ss fuel, reachable fs w -> n <> [] -> ~ In n (map fst (w_reg w)) ->
  (forall u, In u us -> u <> []) -> Forall2 (names w) us us' ->
  exists w' m, top fs (S fuel) (FDefineModule n (use_options us ++ sym (bs "export") :: map sym ss)) w = Done tt w' /\
    current w' = m /\ names w' n m /\ ~ exists_place (w_st w) (InModule m) /\ uses w' m = rev (map (shown w) us') /\
    (forall x, exported w' m x <-> In x ss) /\ w_log w' = w_log w /\ (forall x, binds w' m x = None) /\
    (forall x v, In x ss -> sees w' m x = Some v -> exists p, has_interface w' m p /\ binds w' p x = Some v).
Proof.
  intros fs w n us us' ss fuel R NE N UN F. assert (W := reachable_wf _ _ R). set (m := length (s_mods (w_st w))).
  destruct (register_wf n w W N) as [W1 E1]. set (w1 := register n w) in *. assert (I1 : In m (ids w1)) by now left.
  assert (M1 : forall j, md w1 j = md w j) by (intros j; apply mod_at_new).
  assert (MM : md w1 m = nomod) by (rewrite M1; apply mod_at_out; auto).
  assert (RG : map (fun k => reg_find k (w_reg w1)) us = map Some us').
  { clear UN. induction F as [|a b us us' H F IH]; [reflexivity|]. cbn [map]. f_equal; [|exact IH].
    apply in_reg_find; [apply wf_names, W1|]. right. exact H. }
  assert (H1 : forall k, In k us -> k <> [] /\ exists u, names w1 k u).
  { intros k Hk. split; [auto|]. clear - F Hk. induction F as [|a b us us' H F IH]; [destruct Hk|]. destruct Hk as [<-|Hk]; [exists b; right; exact H|auto]. }
  destruct (opts_uses fs fuel m us (sym (bs "export") :: map sym ss) w1 W1 I1 H1) as (w2 & B0 & B1 & B2 & B3 & B4 & B5 & B6 & B7 & B8 & B9 & B10).
  assert (I2 : In m (ids w2)) by (unfold ids; rewrite B2; exact I1).
  assert (NA : forall s, ~ In (m, s) (w_auto w2)).
  { rewrite B3. intros s Q. assert (L := wf_lt _ W _ (wf_auto _ W _ _ Q)). unfold m in L. lia. }
  destruct (export_all_effect fs fuel m ss w2 B1 I2 NA) as (w3 & C0 & C1 & C2 & C3 & C4 & C5 & C6 & C7 & C8 & C9 & C10).
  { intros p Q. rewrite B7, MM in Q. discriminate. }
  exists (enter m w3), m. split; [|split; [|split; [|split; [|split; [|split; [|split; [|split]]]]]]].
  - unfold top. cbn [run_form]. destruct n as [|a n]; [congruence|]. unfold named_module. rewrite (proj2 (reg_find_none _ _) N). cbn [new_module].
    change (mkWorld _ ((a :: n, length (s_mods (w_st w))) :: w_reg w) (w_auto w) (w_log w)) with w1. fold m. rewrite B0.
    cbn [sym do_opts]. replace (beq (bs "export") (bs "use-module")) with false by reflexivity. rewrite beq_refl.
    rewrite opts_export_app, C0. reflexivity.
  - reflexivity.
  - unfold names. cbn [enter with_st w_reg]. rewrite C2, B2. now left.
  - unfold exists_place, m. lia.
  - unfold uses. change (nth m (s_mods (w_st (enter m w3))) nomod) with (md w3 m). rewrite C6. change (m_uses (md w2 m)) with (uses w2 m).
    rewrite (B10 us' RG). unfold uses. change (nth m (s_mods (w_st w1)) nomod) with (md w1 m). rewrite MM, app_nil_r. f_equal. apply map_ext.
    intros j. unfold shown. change (nth j (s_mods (w_st w1)) nomod) with (md w1 j). now rewrite M1.
  - intros x. unfold exported. change (nth m (s_mods (w_st (enter m w3))) nomod) with (md w3 m). rewrite C7, B8, MM. cbn. tauto.
  - cbn [enter with_st w_log]. rewrite C4, B4. reflexivity.
  - intros x. replace (binds (enter m w3) m x) with (bound (w_st w3) (InModule m) x) by reflexivity.
    assert (D : bound (w_st w2) (InModule m) x = None). { rewrite B9. cbn [bound]. change (nth m (s_mods (w_st w1)) nomod) with (md w1 m). now rewrite MM. }
    destruct (bound (w_st w3) (InModule m) x) as [v|] eqn:Q; [|reflexivity]. exfalso. revert Q.
    assert (K : bound (w_st w3) (InModule m) x = bound (w_st w2) (InModule m) x); [|rewrite K, D; discriminate].
    clear - C0 B1 I2 NA. revert w2 w3 C0 B1 I2 NA. induction ss as [|y ss IH]; intros w2 w3 C0 B1 I2 NA; [now injection C0 as <-|].
    cbn [map sym export_all] in C0.
    destruct (export1_effect fs fuel m y w2 B1 I2) as (w1 & p & E & W1 & X & A1 & A2 & A3 & A4 & A5 & A6 & A7 & A8 & A9 & A10); [intros _; now apply take_auto_none|].
    rewrite E in C0. cbn [bind] in C0. rewrite (IH w1 w3 C0 W1); [|unfold ids in *; now rewrite A5|now rewrite A6].
    apply A9. intros [= <-]. destruct (wf_pub _ W1 m m) as (_ & Q & _); [unfold ids in *; now rewrite A5|exact A1|]. apply Q. unfold ids in *. now rewrite A5.
  - intros x v IX SV. rewrite sees_enter in SV.
    assert (S2 : sees w2 m x = Some v).
    { destruct (sees w2 m x) as [u|] eqn:S2; [destruct (C10 x u S2) as [Q _]; congruence|]. exfalso.
      assert (K : sees w3 m x = sees w2 m x); [|congruence].
      clear - C0 B1 I2 NA B7 MM. assert (NP : forall p, m_pub (md w2 m) = Some p -> ~ In (InModule p) (module_places (w_st w2) m)).
      { intros p Q. rewrite B7, MM in Q. discriminate. }
      clear dependent w1. revert w2 w3 C0 B1 I2 NA NP. induction ss as [|y ss IH]; intros w2 w3 C0 B1 I2 NA NP; [now injection C0 as <-|].
      cbn [map sym export_all] in C0.
      destruct (export1_effect fs fuel m y w2 B1 I2) as (w1 & p & E & W1 & X & A1 & A2 & A3 & A4 & A5 & A6 & A7 & A8 & A9 & A10); [intros _; now apply take_auto_none|].
      assert (PL : module_places (w_st w1) m = module_places (w_st w2) m).
      { unfold module_places. change (nth m (s_mods (w_st w1)) nomod) with (md w1 m). now rewrite A4. }
      assert (PP : ~ In (InModule p) (module_places (w_st w2) m)).
      { destruct (m_pub (md w2 m)) as [p0|] eqn:Q.
        - assert (p0 = p) by (assert (Q1 := ext_pub _ _ X _ _ I2 Q); congruence). subst. auto.
        - intros H. destruct (places_lt w2 m _ B1 I2 H) as (j & [= <-] & L). rewrite (A2 eq_refl) in L. lia. }
      rewrite E in C0. cbn [bind] in C0. rewrite (IH w1 w3 C0 W1).
      - unfold sees. rewrite PL. f_equal. apply first_bound_ext. intros q Hq. apply A9. intros ->. auto.
      - unfold ids in *. now rewrite A5.
      - now rewrite A6.
      - intros p1 Q. rewrite PL. congruence. }
    destruct (C10 x v S2) as [_ Q]. destruct (Q (or_introl IX)) as (p & P1 & P2). exists p. split; [exact P1|exact P2].
Qed.
Print Assumptions c95_clauses.
