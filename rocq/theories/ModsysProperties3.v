(** C95 (where the options do not mean what they say), C96: autoload. *)
From Coq Require Import String Lia.
From Verif Require Import Base ParseModel ParseProofs EnvModel EnvSpec EnvProofs ModsysModel ModsysSpec ModsysProofs ModsysProofs2 ModsysProofs3 ModsysProperties ModsysProperties2.
Local Open Scope string_scope.
Local Open Scope list_scope.
Notation "[ ]" := (@nil _) : list_scope.

Lemma beq_neq a b : beq a b = false <-> a <> b.
Proof. destruct (beq_spec a b); split; congruence. Qed.
Lemma beq_eq a b : beq a b = true -> a = b.
Proof. destruct (beq_spec a b); congruence. Qed.
(** * C95 *)
Lemma define_fresh fs fuel n opts w : n <> [] -> ~ In n (map fst (w_reg w)) ->
  top fs fuel (FDefineModule n opts) w =
  bind (do_opts (sys fs fuel) (length (s_mods (w_st w))) false opts (register n w)) (fun _ w2 => Done tt (enter (length (s_mods (w_st w))) w2)).
Proof.
  intros NE N. unfold top. cbn [run_form]. destruct n as [|a n]; [congruence|]. unfold named_module. rewrite (proj2 (reg_find_none _ _) N). reflexivity.
Qed.
(* The usual way to write the clause, #:export (x ...), exports nothing: the new
   module has no exports and no interface. *)
Theorem c98_list_exports_refuted : forall fs w n l fuel, reachable fs w -> n <> [] -> ~ In n (map fst (w_reg w)) ->
  exists w' m, top fs fuel (FDefineModule n [sym (bs "export"); DList l]) w = Done tt w' /\ names w' n m /\ current w' = m /\
    (forall x, ~ exported w' m x) /\ (forall p, ~ has_interface w' m p).
Proof.
  intros fs w n l fuel R NE N. set (m := length (s_mods (w_st w))). exists (enter m (register n w)), m.
  assert (MM : nth m (s_mods (w_st (enter m (register n w)))) nomod = nomod).
  { change (mod_at (snd (new_module (w_st w))) m = nomod). rewrite mod_at_new. now apply mod_at_out. }
  split; [rewrite define_fresh by auto; reflexivity|]. split; [now left|]. split; [reflexivity|].
  unfold exported, has_interface. rewrite MM. split; [intros x []|intros p; discriminate].
Qed.
Print Assumptions c98_list_exports_refuted.
(* Clauses after the names of an #:export clause are exported names, too: no module
   is used. *)
Lemma opts_export_then fs k m ss n : forall w w1, export_all (sys fs (S k)) m (map sym ss) w = Done tt w1 ->
  do_opts (sys fs (S k)) m true (map sym ss ++ [DList n]) w = Done tt w1.
Proof.
  induction ss as [|x ss IH]; intros w w1 H; [exact H|]. cbn [map sym export_all app do_opts] in *.
  destruct (export1 (sys fs (S k)) m x w); cbn [bind] in *; [|discriminate|discriminate]. now apply IH.
Qed.
Theorem c98_export_takes_the_rest_refuted : forall fs w n ss u fuel, reachable fs w -> n <> [] -> ~ In n (map fst (w_reg w)) ->
  exists w' m, top fs (S fuel) (FDefineModule n (sym (bs "export") :: map sym ss ++ [sym (bs "use-module"); DList u])) w = Done tt w' /\
    names w' n m /\ current w' = m /\ exported w' m (bs "use-module") /\ uses w' m = [] /\ w_log w' = w_log w.
Proof.
  intros fs w n ss u fuel R NE N. assert (W := reachable_wf _ _ R). set (m := length (s_mods (w_st w))).
  destruct (register_wf n w W N) as [W1 E1]. set (w1 := register n w) in *.
  assert (I1 : In m (ids w1)) by now left.
  assert (MM : md w1 m = nomod). { change (mod_at (snd (new_module (w_st w))) m = nomod). rewrite mod_at_new. now apply mod_at_out. }
  destruct (export_all_effect fs fuel m (ss ++ [bs "use-module"]) w1 W1 I1) as (w3 & C0 & C1 & C2 & C3 & C4 & C5 & C6 & C7 & _).
  { intros s Q. assert (L := wf_lt _ W _ (wf_auto _ W _ _ Q)). unfold m in L. lia. }
  { intros p Q. rewrite MM in Q. discriminate. }
  exists (enter m w3), m. split.
  - rewrite define_fresh by auto. fold m w1.
    replace (map sym ss ++ [sym (bs "use-module"); DList u]) with (map sym (ss ++ [bs "use-module"]) ++ [DList u]) by (rewrite map_app, <- app_assoc; reflexivity).
    unfold sym at 1. cbn [do_opts]. replace (beq (bs "export") (bs "use-module")) with false by reflexivity. rewrite beq_refl.
    rewrite (opts_export_then _ _ _ _ _ _ _ C0). reflexivity.
  - split; [unfold names; cbn [enter with_st w_reg]; rewrite C2; now left|]. split; [reflexivity|]. split; [|split].
    + unfold exported. change (nth m (s_mods (w_st (enter m w3))) nomod) with (md w3 m). apply C7. left. apply in_or_app. right. now left.
    + unfold uses. change (nth m (s_mods (w_st (enter m w3))) nomod) with (md w3 m). rewrite C6, MM. reflexivity.
    + cbn [enter with_st w_log]. now rewrite C4.
Qed.
Print Assumptions c98_export_takes_the_rest_refuted.
(* An #:autoload clause takes every later name of the form, the keywords
   included. *)
Theorem c98_autoload_takes_the_rest_refuted : forall fs w n t ss u v fuel, reachable fs w -> n <> [] -> ~ In n (map fst (w_reg w)) ->
  t <> [] -> u <> [] -> names w u v -> Forall (fun x => x <> bs "use-module" /\ x <> bs "export" /\ x <> bs "autoload") ss ->
  exists w' m, top fs (S fuel) (FDefineModule n (sym (bs "autoload") :: DList t :: map sym ss ++ [sym (bs "use-module"); DList u])) w = Done tt w' /\
    names w' n m /\ current w' = m /\ uses w' m = [shown w v] /\ autoloads w' m (bs "use-module").
Proof.
  intros fs w n t ss u v fuel R NE N TE UE NU F. assert (W := reachable_wf _ _ R). set (m := length (s_mods (w_st w))).
  destruct (register_wf n w W N) as [W1 E1]. set (w1 := register n w) in *.
  assert (I1 : In m (ids w1)) by now left.
  assert (MM : md w1 m = nomod). { change (mod_at (snd (new_module (w_st w))) m = nomod). rewrite mod_at_new. now apply mod_at_out. }
  set (rest := map sym ss ++ [sym (bs "use-module"); DList u]).
  assert (SY : syms_of rest = ss ++ [bs "use-module"]).
  { unfold rest. clear. induction ss as [|x ss IH]; [reflexivity|]. cbn [map sym app syms_of]. now rewrite IH. }
  set (w2 := mkWorld (w_st w1) (w_reg w1) ((m, (t, ss ++ [bs "use-module"])) :: w_auto w1) (w_log w1)).
  assert (A : add_auto m t (syms_of rest) w1 = w2). { rewrite SY. unfold add_auto. destruct (ss ++ [bs "use-module"]) eqn:Q; [destruct ss; discriminate|]. unfold w2. first [reflexivity|now rewrite Q]. }
  assert (SK : do_opts (sys fs (S fuel)) m false rest w2 = do_opts (sys fs (S fuel)) m false [sym (bs "use-module"); DList u] w2).
  { unfold rest. clear - F. clearbody w2. clearbody m. induction F as [|x ss (F1 & F2 & F3) F IH]; [reflexivity|]. rewrite <- IH. cbn [map sym app do_opts].
    rewrite !(proj2 (beq_neq _ _)) by auto. reflexivity. }
  assert (RV : reg_find u (w_reg w2) = Some v). { change (w_reg w2) with (w_reg w1). apply in_reg_find; [apply (wf_names _ W1)|]. right. exact NU. }
  exists (enter m (add_use m v w2)), m. split.
  - rewrite define_fresh by auto. fold m w1 rest. unfold sym at 1. cbn [do_opts].
    replace (beq (bs "autoload") (bs "use-module")) with false by reflexivity. replace (beq (bs "autoload") (bs "export")) with false by reflexivity.
    rewrite beq_refl. destruct t as [|b t]; [congruence|]. rewrite A, SK. destruct u as [|c u]; [congruence|].
    unfold sym. cbn [do_opts]. rewrite beq_refl. cbn [sys o_resolve]. unfold resolve_body. rewrite RV. reflexivity.
  - split; [now left|]. split; [reflexivity|]. split.
    + unfold uses. change (nth m (s_mods (w_st (enter m (add_use m v w2)))) nomod) with (mod_at (mod_use (w_st w2) m v) m).
      unfold mod_use. cbv zeta. rewrite mod_at_set by (apply (wf_lt _ W1), I1). rewrite Nat.eqb_refl. cbn [m_uses].
      change (mod_at (w_st w2) m) with (md w1 m). rewrite MM. cbn [m_uses]. unfold shown. f_equal.
      change (mod_at (w_st w2) v) with (mod_at (snd (new_module (w_st w))) v). rewrite mod_at_new. reflexivity.
    + exists t, (ss ++ [bs "use-module"]). split; [now left|]. apply in_or_app. right. now left.
Qed.
Print Assumptions c98_autoload_takes_the_rest_refuted.
(* ... and if a name of the form that is also exported is one of them, the module
   that should be loaded later is loaded at once. *)
Theorem c98_autoload_at_once_refuted : exists fs w, let n := [ASym (bs "m")] in let t := [ASym (bs "t")] in
  session fs (init_world []) [FDefineModule n [sym (bs "autoload"); DList t; sym (bs "f"); sym (bs "export"); sym (bs "g")]] w /\
  w_log w = [EvLoad t (bs "t.scm")].
Proof.
  exists [(bs "t.scm", [FDefine (bs "f") (RVal (VInt 1))])]. eexists. cbv zeta. split.
  - eapply (session_step _ _ [] _ _ 5); [apply session_start|]. left. exists tt. vm_compute. reflexivity.
  - vm_compute. reflexivity.
Qed.
Print Assumptions c98_autoload_at_once_refuted.
Example c95_ex :
  let w := run_top ex_fs [ex_path; FResolve ex_a] (init_world []) in
  let n := [ASym (bs "m")] in
  names w ex_a 1 /\ names w ex_b 2 /\ ~ In n (map fst (w_reg w)) /\
  exists w', top ex_fs 1 (FDefineModule n (use_options [ex_a; ex_b] ++ sym (bs "export") :: map sym [bs "y"; bs "z"])) w = Done tt w' /\
    uses w' (current w') = [3%nat; 4%nat] /\ sees w' (current w') (bs "y") = Some (VInt 2) /\
    has_interface w' (current w') 6 /\ binds w' 6 (bs "y") = Some (VInt 2).
Proof.
  cbv zeta. split; [vm_compute; auto|]. split; [vm_compute; auto|]. split; [vm_compute; intuition discriminate|]. eexists.
  split; [vm_compute; reflexivity|]. split; [vm_compute; reflexivity|]. split; [vm_compute; reflexivity|]. split; vm_compute; reflexivity.
Qed.

(** * C96. Autoload *)
Lemma has_name_in x l : has_name x l = true <-> In x l.
Proof.
  unfold has_name. rewrite existsb_exists. split.
  - intros (y & H & E). apply beq_eq in E. now subst.
  - intros H. exists x. split; [auto|apply beq_refl].
Qed.
Lemma first_auto_take w m x t l1 l2 : first_auto w m x t l1 l2 -> take_auto m x (w_auto w) = Some (t, l1 ++ l2).
Proof.
  intros (xs & -> & I & H). induction l1 as [|[k [n ys]] l1 IH].
  - cbn [app take_auto]. rewrite Nat.eqb_refl, (proj2 (has_name_in _ _) I). reflexivity.
  - cbn [app take_auto]. destruct (Nat.eqb k m && has_name x ys) eqn:E.
    + apply andb_prop in E. destruct E as [E1 E2]. apply Nat.eqb_eq in E1. subst. apply has_name_in in E2. exfalso. eapply H; [now left|exact E2].
    + rewrite IH; [reflexivity|]. intros n0 ys0 Q. eapply H. right. exact Q.
Qed.
Lemma not_listed_take w m x : ~ autoloads w m x -> take_auto m x (w_auto w) = None.
Proof.
  unfold autoloads. induction (w_auto w) as [|[k [n ys]] l IH]; intros H; [reflexivity|]. cbn [take_auto].
  destruct (Nat.eqb k m && has_name x ys) eqn:E.
  - apply andb_prop in E. destruct E as [E1 E2]. apply Nat.eqb_eq in E1. subst. apply has_name_in in E2. exfalso. apply H. exists n, ys. split; [now left|auto].
  - rewrite IH; [reflexivity|]. intros (n0 & ys0 & Q1 & Q2). apply H. exists n0, ys0. split; [now right|auto].
Qed.
Lemma module_ref_search fs k n m x w : wf w -> n <> [] -> names w n m -> x <> bs "%module-public-interface" ->
  top fs (S k) (FModuleRef n x) w =
  bind (search fs (S k) m x w) (fun r w2 => match r with Some v => Done tt (add_log w2 (EvVal v)) | None => Raised w2 end).
Proof.
  intros W NE N X. unfold top. cbn [run_form]. destruct n as [|a n]; [congruence|].
  change (o_resolve (sys fs (S k)) (a :: n) w) with (resolve_body (sys fs k) fs (a :: n) w). unfold resolve_body at 1.
  rewrite (in_reg_find _ _ _ (wf_names _ W) N). cbn [bind]. rewrite (proj2 (beq_neq _ _) X). reflexivity.
Qed.
Lemma search_step fs k m x w : search fs (S k) m x w =
  match sees w m x with
  | Some v => Done (Some v) w
  | None => match take_auto m x (w_auto w) with
            | None => Done None w
            | Some (n, rest) => bind (resolve fs k n (with_auto w rest)) (fun u w1 => search fs k m x (add_use m u w1))
            end
  end.
Proof. unfold search at 1. cbn [sys o_search]. unfold search_body. rewrite mod_search_sees. reflexivity. Qed.
(* A name the module already sees: nothing is loaded, nothing changes but the
   output. *)
Theorem c96_only_when_unbound : forall fs w n m x v fuel, reachable fs w -> n <> [] -> names w n m -> x <> bs "%module-public-interface" ->
  sees w m x = Some v -> top fs (S fuel) (FModuleRef n x) w = Done tt (add_log w (EvVal v)).
Proof.
  intros fs w n m x v fuel R NE N X H. rewrite (module_ref_search fs fuel n m x w (reachable_wf _ _ R) NE N X), search_step, H. reflexivity.
Qed.
Print Assumptions c96_only_when_unbound.
(* A name that the module does not see and that no autoload option of this module
   lists (whatever those of other modules list): an error, nothing is loaded. *)
Theorem c96_only_listed : forall fs w n m x fuel, reachable fs w -> n <> [] -> names w n m -> x <> bs "%module-public-interface" ->
  sees w m x = None -> ~ autoloads w m x -> top fs (S fuel) (FModuleRef n x) w = Raised w.
Proof.
  intros fs w n m x fuel R NE N X H A. rewrite (module_ref_search fs fuel n m x w (reachable_wf _ _ R) NE N X), search_step, H, (not_listed_take _ _ _ A). reflexivity.
Qed.
Print Assumptions c96_only_listed.
(* The first reference to a listed name resolves the module of the first option
   that lists it; that option is used up; the interface of the loaded module is
   then used, and the reference gives what it shows. *)
Theorem c96_first_reference : forall fs w n m x t l1 l2 u w1 v fuel, reachable fs w -> n <> [] -> names w n m ->
  x <> bs "%module-public-interface" -> sees w m x = None -> first_auto w m x t l1 l2 ->
  resolve fs fuel t (with_auto w (l1 ++ l2)) = Done u w1 -> binds w1 m x = None -> binds w1 (shown w1 u) x = Some v ->
  exists w', top fs (S fuel) (FModuleRef n x) w = Done tt w' /\ w_log w' = w_log w1 ++ [EvVal v] /\ w_auto w' = w_auto w1 /\
    uses w' m = shown w1 u :: uses w1 m /\ sees w' m x = Some v /\ current w' = current w.
Proof.
  intros fs w n m x t l1 l2 u w1 v fuel R NE N X H A RS B1 B2. assert (W := reachable_wf _ _ R).
  rewrite (module_ref_search fs fuel n m x w W NE N X), search_step, H, (first_auto_take _ _ _ _ _ _ A), RS. cbn [bind].
  assert (WA : wf (with_auto w (l1 ++ l2)) /\ ext w (with_auto w (l1 ++ l2))).
  { apply drop_auto_wf; auto. destruct A as (xs & -> & _). intros s Q. apply in_app_or in Q. apply in_or_app. destruct Q; [auto|right; now right]. }
  destruct WA as [WA EA].
  assert (G := og_resolve _ (sys_good fs fuel) t (with_auto w (l1 ++ l2)) WA). change (o_resolve (sys fs fuel) t) with (resolve fs fuel t) in G.
  rewrite RS in G. destruct G as (W1 & E1 & R1 & C1). 
  assert (I1 : In m (ids w1)). { eapply ext_ids; [exact E1|]. change (In m (ids w)). eapply in_reg_ids. exact N. }
  assert (L1 := wf_lt _ W1 _ I1). assert (S1 : sees (add_use m u w1) m x = Some v) by (rewrite sees_use, B1, B2; auto).
  destruct fuel as [|fuel]; [discriminate|]. rewrite search_step, S1. cbn [bind]. eexists. split; [reflexivity|]. split; [reflexivity|]. split; [reflexivity|].
  split; [|split; [exact S1|exact C1]].
  unfold uses. change (nth m (s_mods (w_st (add_log (add_use m u w1) (EvVal v)))) nomod) with (mod_at (mod_use (w_st w1) m u) m).
  unfold mod_use. cbv zeta. rewrite mod_at_set by auto. rewrite Nat.eqb_refl. reflexivity.
Qed.
Print Assumptions c96_first_reference.
(* Code evaluated in the current module refers to a name that has no global
   binding in just that way. *)
Theorem c96_code_reference : forall fs w n x v w' fuel, reachable fs w -> n <> [] -> names w n (current w) ->
  x <> bs "%module-public-interface" -> hd 0%Z x <> 58%Z -> bound (w_st w) (InFrame 0) x = None ->
  top fs (S fuel) (FModuleRef n x) w = Done tt (add_log w' (EvVal v)) -> top fs (S fuel) (FRef x) w = Done tt (add_log w' (EvVal v)).
Proof.
  intros fs w n x v w' fuel R NE N X C B H. rewrite (module_ref_search fs fuel n _ x w (reachable_wf _ _ R) NE N X) in H.
  unfold top. cbn [run_form value_of]. rewrite (proj2 (Z.eqb_neq _ _) C). unfold ref_var, env_exist, search_entry.
  cbn [bound] in B. cbn [g_env e_chain firstn search_chain e_mod]. unfold frame_at. rewrite B. cbn [bind].
  change (o_search (sys fs (S fuel)) (s_cur (w_st w)) x w) with (search fs (S fuel) (current w) x w).
  destruct (search fs (S fuel) (current w) x w) as [[u|] w1|w1|]; cbn [bind] in *; try discriminate. exact H.
Qed.
Print Assumptions c96_code_reference.
(* An assignment to a listed name does not load: it makes a global variable, and
   from then on references to the name do not load either. *)
Theorem c99_assignment_refuted : forall fs w x v fuel, reachable fs w -> hd 0%Z x <> 58%Z -> sees w (current w) x = None ->
  bound (w_st w) (InFrame 0) x = None -> exists_place (w_st w) (InFrame 0) ->
  exists w', top fs fuel (FSet x (RVal v)) w = Done tt w' /\ w_log w' = w_log w /\ w_auto w' = w_auto w /\
    bound (w_st w') (InFrame 0) x = Some v /\ top fs fuel (FRef x) w' = Done tt (add_log w' (EvVal v)).
Proof.
  intros fs w x v fuel R C S0 B L. exists (with_st w (env_insert (w_st w) g_env x v false)). cbn [bound exists_place] in B, L.
  assert (Q : env_insert (w_st w) g_env x v false = set_frame (w_st w) 0 ((x, v) :: frame_at (w_st w) 0)).
  { unfold env_insert, search_entry. cbn [g_env e_chain firstn search_chain]. unfold frame_at at 1. now rewrite B. }
  assert (B1 : bound (set_frame (w_st w) 0 ((x, v) :: frame_at (w_st w) 0)) (InFrame 0) x = Some v).
  { rewrite bound_set_frame by auto. cbn [Nat.eqb assoc]. now rewrite beq_refl. }
  assert (MF : mod_find (w_st w) (s_cur (w_st w)) x = None).
  { unfold current in S0. rewrite <- mod_search_sees in S0. unfold mod_search in S0. destruct (mod_find _ _ _) as [[]|]; congruence. }
  split; [|split; [|split; [|split]]].
  - unfold top. cbn [run_form value_of bind]. unfold do_set. unfold search_entry. cbn [g_env e_chain search_chain].
    unfold frame_at at 1. rewrite B, MF. reflexivity.
  - reflexivity.
  - reflexivity.
  - cbn [with_st w_st]. rewrite Q. exact B1.
  - unfold top. cbn [run_form value_of]. rewrite (proj2 (Z.eqb_neq _ _) C). unfold ref_var, env_exist, search_entry.
    cbn [g_env e_chain firstn search_chain with_st w_st]. rewrite Q. cbn [bound] in B1. unfold frame_at at 1. rewrite B1. reflexivity.
Qed.
Print Assumptions c99_assignment_refuted.
(* A module whose file fails is not tried again: the first reference raises the
   error of the file, every later one finds the name unbound, with no effect. *)
Theorem c99_failure_refuted : forall fs w n m x t l1 l2 p rest fuel, reachable fs w -> n <> [] -> names w n m ->
  x <> bs "%module-public-interface" -> sees w m x = None -> first_auto w m x t l1 l2 ->
  (forall k ys, In (m, (k, ys)) l2 -> ~ In x ys) -> ~ In t (map fst (w_reg w)) ->
  find (file_exists fs) (candidates w t) = Some p -> file_at fs p = Some (FFail :: rest) ->
  exists w', top fs (S (S fuel)) (FModuleRef n x) w = Raised w' /\ w_log w' = w_log w ++ [EvLoad t p] /\
    top fs (S fuel) (FModuleRef n x) w' = Raised w'.
Proof.
  intros fs w n m x t l1 l2 p rest fuel R NE N X H A NA NT F B. assert (W := reachable_wf _ _ R).
  set (w0 := with_auto w (l1 ++ l2)).
  assert (WA : wf w0 /\ ext w w0).
  { apply drop_auto_wf; auto. destruct A as (xs & -> & _). intros s Q. apply in_app_or in Q. apply in_or_app. destruct Q; [auto|right; now right]. }
  destruct WA as [WA EA].
  assert (FF := find_file_first fs w t). rewrite F, B in FF. change (w_st w) with (w_st w0) in FF.
  destruct (register_wf t w0 WA NT) as [W1 E1].
  set (k := length (s_mods (w_st w0))).
  set (st2 := snd (make_module_env (w_st (register t w0)) k g_env)).
  set (w' := add_log (with_st (register t w0) (set_current st2 k)) (EvLoad t p)).
  assert (RS : resolve fs (S fuel) t w0 = Raised w').
  { unfold resolve. cbn [sys o_resolve]. unfold resolve_body. change (w_reg w0) with (w_reg w) at 1. rewrite (proj2 (reg_find_none _ _) NT).
    cbn [new_module]. cbv zeta. rewrite FF. reflexivity. }
  exists w'. rewrite (module_ref_search fs (S fuel) n m x w W NE N X), search_step, H, (first_auto_take _ _ _ _ _ _ A). fold w0. rewrite RS. cbn [bind].
  split; [reflexivity|]. split; [reflexivity|].
  assert (WW : wf w').
  { assert (S2 : ob_step (register t w0) st2) by (constructor; auto). destruct (ob_step_wf _ _ W1 S2) as [W2 E2].
    destruct (enter_wf (with_st (register t w0) st2) k W2) as [W3 E3]; [now left|].
    change (enter k (with_st (register t w0) st2)) with (with_st (register t w0) (set_current st2 k)) in *.
    apply add_log_load_wf; [exact W3|now left|]. intros Q. apply NT. apply (wf_loaded _ W). exact Q. }
  rewrite (module_ref_search fs fuel n m x w' WW NE); [|right; exact N|exact X]. rewrite search_step.
  assert (MD : forall j, nth j (s_mods (w_st w')) nomod = nth j (s_mods (w_st w)) nomod) by (intros j; apply (mod_at_new (w_st w))).
  assert (SE : sees w' m x = None).
  { rewrite <- H. unfold sees. f_equal. assert (PL : module_places (w_st w') m = module_places (w_st w) m) by (unfold module_places; now rewrite MD).
    rewrite PL. apply first_bound_ext. intros q Hq.
    destruct (places_lt w m q W (in_reg_ids _ _ _ N) Hq) as (j & -> & _). cbn [bound]. now rewrite MD. }
  rewrite SE, not_listed_take; [reflexivity|].
  intros (q & ys & I1 & I2). change (w_auto w') with (l1 ++ l2) in I1. apply in_app_or in I1. destruct I1 as [I1|I1]; [|eapply NA; eauto].
  destruct A as (xs & _ & _ & A). eapply A; eauto.
Qed.
Print Assumptions c99_failure_refuted.

(* an instance: (m) autoloads f and g from (t), which exports f only *)
Definition ex_t : list atom := [ASym (bs "t")].
Definition ex_m : list atom := [ASym (bs "m")].
Definition ex_fs2 : list (list Z * list form) :=
  [(bs "t.scm", [FDefinePublic (bs "f") (RVal (VInt 5)); FDefine (bs "g") (RVal (VInt 6))]); (bs "bad.scm", [FFail])].
Example c96_ex :
  let w := run_top ex_fs2 [FDefineModule ex_m [sym (bs "autoload"); DList ex_t; sym (bs "f"); sym (bs "g")]] (init_world []) in
  names w ex_m (current w) /\ w_log w = [] /\ sees w (current w) (bs "f") = None /\ first_auto w (current w) (bs "f") ex_t [] [] /\
  (exists u w1, resolve ex_fs2 3 ex_t (with_auto w []) = Done u w1 /\ binds w1 (current w) (bs "f") = None /\ binds w1 (shown w1 u) (bs "f") = Some (VInt 5)) /\
  w_log (run_top ex_fs2 [FRef (bs "f"); FRef (bs "f"); FRef (bs "g")] w) = [EvLoad ex_t (bs "t.scm"); EvVal (VInt 5); EvVal (VInt 5)] /\
  w_log (run_top ex_fs2 [FSet (bs "f") (RVal (VInt 1)); FRef (bs "f")] w) = [EvVal (VInt 1)] /\
  exists_place (w_st w) (InFrame 0).
Proof.
  cbv zeta. split; [vm_compute; auto|]. split; [vm_compute; reflexivity|]. split; [vm_compute; reflexivity|].
  split; [exists [bs "f"; bs "g"]; split; [vm_compute; reflexivity|split; [now left|intros n ys []]]|].
  split; [eexists; eexists; split; [vm_compute; reflexivity|split; vm_compute; reflexivity]|].
  split; [vm_compute; reflexivity|]. split; [vm_compute; reflexivity|]. vm_compute. lia.
Qed.
(* an instance of c99_failure_refuted *)
Example c99_ex_failure :
  let bad := [ASym (bs "bad")] in
  let w := run_top ex_fs2 [FDefineModule ex_m [sym (bs "autoload"); DList bad; sym (bs "f")]] (init_world []) in
  first_auto w (current w) (bs "f") bad [] [] /\ ~ In bad (map fst (w_reg w)) /\
  find (file_exists ex_fs2) (candidates w bad) = Some (bs "bad.scm") /\ file_at ex_fs2 (bs "bad.scm") = Some [FFail] /\
  w_log (run_top ex_fs2 [FRef (bs "f"); FRef (bs "f")] w) = [EvLoad bad (bs "bad.scm")].
Proof.
  cbv zeta. split; [exists [bs "f"]; split; [vm_compute; reflexivity|split; [now left|intros n ys []]]|].
  split; [vm_compute; intuition discriminate|]. split; [vm_compute; reflexivity|]. split; vm_compute; reflexivity.
Qed.
