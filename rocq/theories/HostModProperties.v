(** Module functions for C++ code: C184, C185. *)
From Coq Require Import String Lia.
From Verif Require Import Base ParseModel EnvModel EnvSpec EnvProofs ModsysModel ModsysSpec ModsysProofs ModsysProofs2 ModsysProofs3 ModsysProperties ModsysProperties2 HostModModel HostModSpec.
Local Open Scope string_scope.
Local Open Scope list_scope.

(** * C184 *)
Lemma var_new v w vars : variable_ref (mkHost w (vars ++ [v])) (length vars) = Some v.
Proof. unfold variable_ref. cbn [h_vars]. rewrite nth_error_app2 by lia. rewrite Nat.sub_diag. reflexivity. Qed.
Lemma var_keep w w' vars v : keeps_variables (mkHost w vars) (mkHost w' (vars ++ [v])).
Proof. intros k u H. unfold variable_ref in *. cbn [h_vars] in *. rewrite nth_error_app1; [exact H|]. apply nth_error_Some. congruence. Qed.
(* looking up a name gives a new variable that holds what code in the module sees;
   nothing else changes *)
Theorem c184_lookup : forall fs fuel m x v h, sees (h_world h) m x = Some v ->
  exists k h', module_lookup fs (S fuel) m x h = Returned k h' /\ variable_ref h' k = Some v /\ h_world h' = h_world h /\ keeps_variables h h'.
Proof.
  intros fs fuel m x v [w vars] H. cbn [h_world] in H. exists (length vars), (mkHost w (vars ++ [v])).
  split; [|split; [apply var_new|split; [reflexivity|apply var_keep]]].
  unfold module_lookup, search. cbn [sys o_search h_world]. unfold search_body. rewrite mod_search_sees, H. reflexivity.
Qed.
Print Assumptions c184_lookup.
(* an unknown name is an error *)
Theorem c184_lookup_unbound : forall fs fuel m x h, sees (h_world h) m x = None -> ~ autoloads (h_world h) m x ->
  module_lookup fs (S fuel) m x h = Threw h.
Proof.
  intros fs fuel m x [w vars] H N. cbn [h_world] in *. unfold module_lookup, search. cbn [sys o_search h_world]. unfold search_body. rewrite mod_search_sees, H.
  destruct (take_auto m x (w_auto w)) as [[n r]|] eqn:T; [|reflexivity]. exfalso. apply N. clear H N. unfold autoloads. revert n r T.
  induction (w_auto w) as [|[k [n' xs]] l IH]; intros n r T; [discriminate T|]. cbn [take_auto] in T.
  destruct (Nat.eqb_spec k m) as [->|Nk]; cbn [andb] in T.
  - destruct (has_name x xs) eqn:HN.
    + exists n', xs. split; [now left|]. unfold has_name in HN. apply existsb_exists in HN. destruct HN as (y & I & E). destruct (beq_spec y x); [subst; exact I|discriminate E].
    + destruct (take_auto m x l) as [[n1 r1]|] eqn:T1; [|discriminate T]. destruct (IH _ _ eq_refl) as (a & b & I & J). exists a, b. split; [now right|exact J].
  - destruct (take_auto m x l) as [[n1 r1]|] eqn:T1; [|discriminate T]. destruct (IH _ _ eq_refl) as (a & b & I & J). exists a, b. split; [now right|exact J].
Qed.
Print Assumptions c184_lookup_unbound.
Lemma defines_ok w m x v : (m < length (s_mods (w_st w)))%nat -> defines w m x v (with_st w (ob_set (w_st w) m x v)).
Proof.
  intro L. destruct (put_mod (w_st w) m x v L) as (B & O & C & U). unfold defines, binds, uses, exported, has_interface, current. cbn [with_st w_st w_reg w_auto w_log].
  assert (E : forall k, m_exports (nth k (s_mods (ob_set (w_st w) m x v)) (mkMod [] [] [] None)) = m_exports (nth k (s_mods (w_st w)) (mkMod [] [] [] None)) /\
                        m_pub (nth k (s_mods (ob_set (w_st w) m x v)) (mkMod [] [] [] None)) = m_pub (nth k (s_mods (w_st w)) (mkMod [] [] [] None))).
  { intro k. unfold ob_set. cbn [set_mod s_mods]. rewrite nth_upd by auto. destruct (Nat.eqb_spec m k) as [->|]; split; reflexivity. }
  split; [exact B|]. split; [intros k y N; apply O; destruct (Nat.eq_dec k m); [right|left]; congruence|].
  split; [exact U|]. split; [intros k y; rewrite (proj1 (E k)); reflexivity|]. split; [intros k p; rewrite (proj2 (E k)); reflexivity|].
  split; [exact C|]. repeat (split; [reflexivity|]). reflexivity.
Qed.
(* defining a name in a module changes that binding and nothing else *)
Theorem c184_define : forall m x v h, (m < length (s_mods (w_st (h_world h))))%nat ->
  exists k h', module_define m x v h = Returned k h' /\ defines (h_world h) m x v (h_world h') /\ variable_ref h' k = Some v /\ keeps_variables h h'.
Proof.
  intros m x v [w vars] L. cbn [h_world] in L. eexists. eexists. split; [reflexivity|]. cbn [h_world h_vars].
  split; [now apply defines_ok|]. split; [apply var_new|apply var_keep].
Qed.
Print Assumptions c184_define.
(* scm_c_define and scm_c_define_gsubr define in the current module *)
Theorem c184_current : forall x v h, (current (h_world h) < length (s_mods (w_st (h_world h))))%nat ->
  exists k h', c_define x v h = Returned k h' /\ defines (h_world h) (current (h_world h)) x v (h_world h') /\ variable_ref h' k = Some v /\ keeps_variables h h'.
Proof. intros x v h L. exact (c184_define (current (h_world h)) x v h L). Qed.
Print Assumptions c184_current.
(* what was defined is found *)
Theorem c184_define_lookup : forall fs fuel m x v h k h1, (m < length (s_mods (w_st (h_world h))))%nat -> module_define m x v h = Returned k h1 ->
  exists k2 h2, module_lookup fs (S fuel) m x h1 = Returned k2 h2 /\ variable_ref h2 k2 = Some v.
Proof.
  intros fs fuel m x v h k h1 L D. destruct (c184_define m x v h L) as (k' & h' & E & (B & _) & _). rewrite E in D.
  assert (X : h' = h1) by (clear - D; congruence). subst h'.
  assert (SV : sees (h_world h1) m x = Some v).
  { unfold sees, module_places. cbn [first_bound]. unfold binds in B. rewrite B. reflexivity. }
  destruct (c184_lookup fs fuel m x v h1 SV) as (k2 & h2 & E2 & V & _). eauto.
Qed.
Print Assumptions c184_define_lookup.
(* a C++ function called in a module: it runs with that module as the current one,
   and when it returns, the current module is what it was, whatever the function did *)
Theorem c184_in_module : forall A m (f : host -> ending A) h a h', call_with_current_module m f h = Returned a h' ->
  current (h_world h') = current (h_world h) /\
  exists h1, f (with_current m h) = Returned a h1 /\ current (h_world (with_current m h)) = m /\ h' = with_current (current (h_world h)) h1.
Proof.
  intros A m f h a h' E. unfold call_with_current_module in E. unfold with_current, current in *. destruct (f (mkHost (enter m (h_world h)) (h_vars h))) as [a1 h1| |]; try discriminate E.
  assert (X : a1 = a /\ mkHost (enter (s_cur (w_st (h_world h))) (h_world h1)) (h_vars h1) = h') by (clear - E; inversion E; auto). destruct X as [<- <-].
  split; [reflexivity|]. exists h1. split; [reflexivity|]. split; reflexivity.
Qed.
Print Assumptions c184_in_module.
(* defining a module that has a name already: that module, nothing is loaded; the
   initialiser runs in it and the current module is kept *)
Theorem c184_define_module : forall fs fuel n m h, reachable fs (h_world h) -> names (h_world h) n m ->
  define_module fs (S fuel) n None h = Returned m h /\
  (forall init r h', define_module fs (S fuel) n (Some init) h = Returned r h' ->
     r = m /\ current (h_world h') = current (h_world h) /\ exists h1, init (with_current m h) = Returned tt h1 /\ h' = with_current (current (h_world h)) h1).
Proof.
  intros fs fuel n m [w vars] R N. cbn [h_world] in *. assert (W : wf w) by (now apply (reachable_wf fs)).
  assert (F : reg_find n (w_reg w) = Some m) by (apply in_reg_find; [apply W|exact N]).
  assert (RS : resolve fs (S fuel) n w = Done m w) by (unfold resolve; cbn [sys o_resolve]; unfold resolve_body; rewrite F; reflexivity).
  unfold define_module. cbn [h_world h_vars]. rewrite RS. split; [reflexivity|]. intros init r h' E.
  unfold with_current. cbn [h_world h_vars]. destruct (init (mkHost (enter m w) vars)) as [[] h1|h1|]; try discriminate E.
  assert (X : m = r /\ mkHost (enter (s_cur (w_st w)) (h_world h1)) (h_vars h1) = h') by (clear - E; inversion E; auto). destruct X as [<- <-].
  split; [reflexivity|]. split; [reflexivity|]. exists h1. split; reflexivity.
Qed.
Print Assumptions c184_define_module.

(* using a module from C++: the current module sees what the module shows (unless it
   has its own variable), before what modules used earlier show; what the module does
   not show means what it meant before; no other module is affected, nothing is loaded *)
Theorem c184_use : forall fs fuel n u h, reachable fs (h_world h) -> names (h_world h) n u ->
  exists h', use_module fs (S fuel) n h = Returned tt h' /\ h_vars h' = h_vars h /\
    (forall x, sees (h_world h') (current (h_world h)) x =
       match binds (h_world h) (current (h_world h)) x with
       | Some v => Some v
       | None => match binds (h_world h) (shown (h_world h) u) x with Some v => Some v | None => sees (h_world h) (current (h_world h)) x end
       end) /\
    (forall k x, k <> current (h_world h) -> sees (h_world h') k x = sees (h_world h) k x) /\
    current (h_world h') = current (h_world h) /\ w_log (h_world h') = w_log (h_world h).
Proof.
  intros fs fuel n u [w vars] R N. cbn [h_world h_vars] in *. assert (W := reachable_wf _ _ R). assert (LC := wf_lt _ W _ (wf_cur _ W)).
  assert (F : reg_find n (w_reg w) = Some u) by (apply in_reg_find; [apply W|exact N]).
  exists (mkHost (add_use (current w) u w) vars). split.
  - unfold use_module, resolve. cbn [sys o_resolve h_world h_vars]. unfold resolve_body. rewrite F. reflexivity.
  - split; [reflexivity|]. cbn [h_world]. split; [intro x; now apply sees_use|]. split; [intros k x K; now apply sees_use_other|]. split; reflexivity.
Qed.
Print Assumptions c184_use.
(* a session in which the hypotheses hold: module (lib b) shows y = 2 to its users, hides
   "hidden"; C++ code defines z in it and uses it *)
Example c184_ex :
  let w := run_top ex_fs [ex_path; FResolve ex_a] (init_world []) in
  let h := mkHost w [VInt 8] in
  names w ex_b 2 /\ current w = 0%nat /\ sees w 2 (bs "hidden") = Some (VInt 3) /\ sees w 0 (bs "y") = None /\
  match module_lookup ex_fs 3 2 (bs "hidden") h with Returned 1%nat h1 => variable_ref h1 1 | _ => None end = Some (VInt 3) /\
  match module_lookup ex_fs 3 0 (bs "y") h with Threw _ => true | _ => false end = true /\
  match module_define 2 (bs "z") (VInt 9) h with Returned 1%nat h1 => sees (h_world h1) 2 (bs "z") | _ => None end = Some (VInt 9) /\
  match use_module ex_fs 3 ex_b h with Returned tt h1 => sees (h_world h1) 0 (bs "y") | _ => None end = Some (VInt 2) /\
  match define_module ex_fs 3 ex_b (Some (fun h1 => match c_define (bs "q") (VInt 4) h1 with Returned _ h2 => Returned tt h2 | Threw h2 => Threw h2 | NoFuel => NoFuel end)) h with
  | Returned 2%nat h1 => (current (h_world h1), sees (h_world h1) 2 (bs "q"), sees (h_world h1) 0 (bs "q")) | _ => (7%nat, None, None) end = (0%nat, Some (VInt 4), None).
Proof. split; [vm_compute; auto|]. repeat (split; [vm_compute; reflexivity|]). vm_compute; reflexivity. Qed.

(* setting a variable changes the value of that variable, no other one and no module *)
Theorem c184_variable : forall k v h, variable_ref h k <> None ->
  variable_ref (variable_set k v h) k = Some v /\ (forall j, j <> k -> variable_ref (variable_set k v h) j = variable_ref h j) /\ h_world (variable_set k v h) = h_world h.
Proof.
  intros k v [w vars] H. unfold variable_ref, variable_set in *. cbn [h_vars h_world] in *. split; [|split; [|reflexivity]].
  - revert k H. induction vars as [|y r IH]; intros [|k] H; cbn in *; try congruence. now apply IH.
  - revert k H. induction vars as [|y r IH]; intros [|k] H [|j] N; cbn in *; try congruence. apply IH; congruence.
Qed.
Print Assumptions c184_variable.

(** * C185 *)
(* the claim: the current module is what it was however the called function ends.  It
   does not hold: an error leaves the current module as the function had it *)
Theorem c185_escape_refuted :
  (forall A m (f : host -> ending A) h h1, f (with_current m h) = Threw h1 -> current (h_world h1) = m -> m <> current (h_world h) ->
     exists h', call_with_current_module m f h = Threw h' /\ current (h_world h') = m /\ current (h_world h') <> current (h_world h)) /\
  (forall fs fuel n m init h h1, reachable fs (h_world h) -> names (h_world h) n m -> init (with_current m h) = Threw h1 -> current (h_world h1) = m ->
     m <> current (h_world h) -> exists h', define_module fs (S fuel) n (Some init) h = Threw h' /\ current (h_world h') = m /\ current (h_world h') <> current (h_world h)).
Proof.
  split.
  - intros A m f h h1 E C N. exists h1. unfold call_with_current_module. unfold with_current in E. rewrite E. split; [reflexivity|]. split; [exact C|congruence].
  - intros fs fuel n m init [w vars] h1 R NM E C N. cbn [h_world] in *. assert (W := reachable_wf _ _ R). exists h1.
    assert (F : reg_find n (w_reg w) = Some m) by (apply in_reg_find; [apply W|exact NM]).
    unfold define_module, resolve. cbn [sys o_resolve h_world h_vars]. unfold resolve_body. rewrite F. unfold with_current in E. cbn [h_world h_vars] in E. rewrite E.
    split; [reflexivity|]. split; [exact C|congruence].
Qed.
Print Assumptions c185_escape_refuted.
(* the claim: the variable that looking up or defining a name gives is the variable of the
   name, so that setting one is seen through the other.  It does not hold: it is a copy.
   Setting it changes no module, and defining the name again does not change it *)
Theorem c185_variable_is_a_copy_refuted :
  (forall k v h m x, sees (h_world (variable_set k v h)) m x = sees (h_world h) m x) /\
  (forall fs fuel m x v h k h', sees (h_world h) m x = Some v -> module_lookup fs (S fuel) m x h = Returned k h' ->
     forall v2, (m < length (s_mods (w_st (h_world h))))%nat -> exists k2 h2, module_define m x v2 h' = Returned k2 h2 /\ sees (h_world h2) m x = Some v2 /\ variable_ref h2 k = Some v /\ k2 <> k).
Proof.
  split; [reflexivity|]. intros fs fuel m x v h k h' S0 E v2 L. destruct (c184_lookup fs fuel m x v h S0) as (k1 & h1 & E1 & V1 & W1 & _).
  rewrite E1 in E. assert (X : k1 = k /\ h1 = h') by (clear - E; inversion E; auto). destruct X as [-> ->]. rewrite <- W1 in L.
  destruct (c184_define m x v2 h' L) as (k2 & h2 & E2 & (B & _) & V2 & K). exists k2, h2. split; [exact E2|]. split; [|split; [now apply K|]].
  - unfold sees, module_places. cbn [first_bound]. unfold binds in B. rewrite B. reflexivity.
  - intros ->. unfold module_define, make_variable in E2. assert (X : length (h_vars h') = k) by (clear - E2; congruence). unfold variable_ref in V1.
    assert (Y : nth_error (h_vars h') k <> None) by congruence. apply nth_error_Some in Y. lia.
Qed.
Print Assumptions c185_variable_is_a_copy_refuted.
Example c185_ex :
  let w := run_top ex_fs [ex_path; FResolve ex_a] (init_world []) in
  let h := mkHost w [] in
  let fail := fun h1 : host => Threw (A := unit) h1 in
  names w ex_b 2 /\ current (h_world (with_current 2 h)) = 2%nat /\ current w = 0%nat /\
  match call_with_current_module 2 fail h with Threw h1 => current (h_world h1) | _ => 9%nat end = 2%nat /\
  match module_lookup ex_fs 3 2 (bs "hidden") h with
  | Returned k h1 => (variable_ref (variable_set k (VInt 5) h1) k, sees (h_world (variable_set k (VInt 5) h1)) 2 (bs "hidden")) | _ => (None, None) end = (Some (VInt 5), Some (VInt 3)).
Proof. split; [vm_compute; auto|]. repeat (split; [vm_compute; reflexivity|]). vm_compute; reflexivity. Qed.
