(** C92, C93: loading modules; the current module. *)
From Coq Require Import String Lia.
From Verif Require Import Base ParseModel ParseProofs EnvModel EnvSpec EnvProofs ModsysModel ModsysSpec ModsysProofs ModsysProofs2 ModsysProofs3.
Local Open Scope string_scope.
Local Open Scope list_scope.
Notation "[ ]" := (@nil _) : list_scope.

(** * C92. Loading a module *)
(* In every session the file of a module name is evaluated at most once. *)
Theorem c92_evaluated_once : forall fs w, reachable fs w -> NoDup (loads (w_log w)).
Proof. intros fs w H. apply wf_loads, (reachable_wf fs), H. Qed.
Print Assumptions c92_evaluated_once.
(* A name stands for the same module for ever, and resolving it again has no
   effect at all; different names stand for different modules. *)
Theorem c92_resolved_for_ever : forall fs w n m l w' fuel, reachable fs w -> names w n m -> session fs w l w' ->
  resolve fs (S fuel) n w' = Done m w' /\ (forall n', names w' n' m -> n' = n).
Proof.
  intros fs w n m l w' fuel R N H. destruct (session_good _ _ _ _ (reachable_wf _ _ R) H) as [W E].
  assert (N' : names w' n m). { destruct (ext_reg _ _ E) as [k Q]. unfold names. rewrite Q. apply in_or_app. auto. }
  split.
  - unfold resolve. cbn [sys o_resolve]. unfold resolve_body. now rewrite (in_reg_find _ _ _ (wf_names _ W) N').
  - intros n' H'. assert (D := wf_ids _ W). unfold names, ids in *. revert D H' N'. generalize (w_reg w'). intros r.
    induction r as [|[k j] r IH]; [intros _ []|]. cbn [map snd]. intros D [A|A] [B|B].
    + congruence.
    + injection A as -> ->. inversion D as [|? ? D1 _]; subst. exfalso. apply D1. apply in_map_iff. exists (n, m). auto.
    + injection B as -> ->. inversion D as [|? ? D1 _]; subst. exfalso. apply D1. apply in_map_iff. exists (n', m). auto.
    + inversion D; subst. auto.
Qed.
Print Assumptions c92_resolved_for_ever.
(* Whatever the files say, circular uses and autoloads included, every form
   ends. *)
Theorem c92_terminates : forall fs f w, exists fuel r, r <> OutOfFuel /\ forall k, top fs (fuel + k) f w = r.
Proof.
  intros fs f w. destruct (top_terminates fs f w) as [n H]. exists n, (top fs n f w). split; [auto|]. intros k. now apply top_more.
Qed.
Print Assumptions c92_terminates.
Lemma in_dir_under d p : in_dir d p = under d p.
Proof.
  unfold in_dir, under. destruct (rev d) as [|c r] eqn:E.
  - apply (f_equal (@rev Z)) in E. rewrite rev_involutive in E. now subst.
  - apply (f_equal (@rev Z)) in E. rewrite rev_involutive in E. cbn in E. subst. rewrite last_last.
    destruct (rev r ++ [c]) eqn:Q; [destruct (rev r); discriminate|]. rewrite <- Q. reflexivity.
Qed.
Lemma path_file n : path_of n = file_name n.
Proof.
  unfold path_of, file_name. f_equal. induction n as [|a n IH]; [reflexivity|]. cbn [join_path map slashed].
  destruct n as [|b n]; [destruct a; reflexivity|]. rewrite IH. cbn [map]. destruct a; reflexivity.
Qed.
Lemma file_at_exists fs p : file_exists fs p = match file_at fs p with Some _ => true | None => false end.
Proof. induction fs as [|[q b] fs IH]; cbn; auto. destruct (beq q p); auto. Qed.
Lemma find_file_first fs w n : find_file fs (w_st w) n =
  match find (file_exists fs) (candidates w n) with
  | Some p => match file_at fs p with Some b => Some (p, b) | None => None end
  | None => None
  end.
Proof.
  unfold find_file, candidates, load_path, load_dirs, ob_lookup, mod_at, root. cbn [bound]. rewrite path_file.
  set (dirs := match assoc (bs "%load-path") _ with Some (VList ns _) => ns | _ => [] end).
  assert (L : match assoc (bs "%load-path") (m_ob (nth 0 (s_mods (w_st w)) nomod)) with Some (VList ns _) => strings_of ns | _ => [] end = strings_of dirs).
  { unfold dirs. destruct (assoc _ _) as [[]|]; reflexivity. }
  rewrite L. clearbody dirs. clear L. induction dirs as [|v dirs IH].
  - cbn. rewrite file_at_exists. destruct (file_at fs (file_name n)) eqn:E; [now rewrite E|reflexivity].
  - destruct v; try exact IH. cbn [strings_of flat_map app map find search_path]. rewrite in_dir_under, file_at_exists.
    destruct (file_at fs (under s (file_name n))) eqn:E; [now rewrite E|]. exact IH.
Qed.
(* The file that is evaluated is the first existing candidate: the directories of
   %load-path in order, then the current directory.  Without one there is a
   warning, no file is evaluated and the module is empty. *)
Theorem c92_which_file : forall fs w n fuel r, ~ In n (map fst (w_reg w)) -> resolve fs (S fuel) n w = r ->
  match find (file_exists fs) (candidates w n) with
  | Some p => forall w', ends r w' -> reachable fs w -> exists l, w_log w' = w_log w ++ EvLoad n p :: l /\ ~ In n (loads l)
  | None => exists m w', r = Done m w' /\ w_log w' = w_log w ++ [EvWarn n] /\ (forall x, binds w' m x = None) /\ uses w' m = []
  end.
Proof.
  intros fs w n fuel r N <-. assert (FF := find_file_first fs w n).
  unfold resolve. cbn [sys o_resolve]. unfold resolve_body. rewrite (proj2 (reg_find_none _ _) N). cbn [new_module]. cbv zeta.
  destruct (find (file_exists fs) (candidates w n)) as [p|] eqn:F.
  - assert (X : file_exists fs p = true) by (eapply find_some; eauto). rewrite file_at_exists in X.
    destruct (file_at fs p) as [body|] eqn:B; [|discriminate]. rewrite FF. cbn [make_module_env make_env].
    intros w' H R. assert (W := reachable_wf _ _ R). destruct (register_wf n w W N) as [W1 E1].
    match type of H with context [add_log (with_st ?r (set_current ?s ?m)) _] =>
      change r with (register n w) in H; set (st2 := s) in H; set (m0 := m) in H end.
    assert (S2 : ob_step (register n w) st2) by (constructor; auto).
    destruct (ob_step_wf _ _ W1 S2) as [W2 E2].
    destruct (enter_wf (with_st (register n w) st2) m0 W2) as [W3 E3]; [now left|].
    change (enter m0 (with_st (register n w) st2)) with (with_st (register n w) (set_current st2 m0)) in *.
    destruct (add_log_load_wf _ n p W3) as [W4 E4]; [now left|intros Q; apply N; apply (wf_loaded _ W); exact Q|].
    set (w4 := add_log (with_st (register n w) (set_current st2 m0)) (EvLoad n p)) in *.
    assert (K : wf w' /\ ext w4 w').
    { destruct body as [|f body]; [destruct H as [[a H]|H]; [discriminate|injection H as <-; split; [auto|apply ext_refl]]|].
      assert (G : good w4 anyQ (run_all (sys fs fuel) (mkEnv (length (s_frames (w_st w)) :: e_chain g_env) (Some m0)) (f :: body) w4)).
      { apply run_all_ok; auto; [apply sys_good|]. intros k [= <-]. now left. }
      cbv beta iota in H.
      destruct (run_all (sys fs fuel) _ (f :: body) w4) as [a w5|w5|]; cbn [bind] in H.
      - destruct H as [[b H]|H]; [|discriminate]. injection H as _ <-. destruct G as (G1 & G2 & _).
        destruct (enter_wf w5 (s_cur (w_st w)) G1) as [G3 G4]; [eapply ext_ids; [exact G2|]; right; apply wf_cur, W|].
        split; [exact G3|eapply ext_trans; [exact W4|exact G2|exact G4]].
      - destruct H as [[b H]|H]; [discriminate|]. injection H as <-. destruct G as (G1 & G2). split; auto.
      - destruct H as [[b H]|H]; discriminate. }
    destruct K as [K1 K2]. destruct (ext_log _ _ K2) as [l L]. exists l. split.
    + rewrite L. unfold w4. cbn [add_log w_log with_st register]. now rewrite <- app_assoc.
    + intros Q. assert (D := wf_loads _ K1). rewrite L, loads_app in D. unfold w4 in D. cbn [add_log w_log with_st register] in D.
      rewrite loads_app in D. cbn [loads] in D. rewrite <- app_assoc in D. apply NoDup_remove_2 in D. apply D. apply in_or_app. auto.
  - rewrite FF. eexists. eexists. split; [reflexivity|]. split; [reflexivity|]. unfold binds, uses, bound. cbn [add_log w_st s_mods].
    rewrite app_nth2, Nat.sub_diag by auto. split; reflexivity.
Qed.
Print Assumptions c92_which_file.
Lemma assoc_app x l1 l2 : assoc x (l1 ++ l2) = match assoc x l1 with Some v => Some v | None => assoc x l2 end.
Proof. induction l1 as [|[k v] l1 IH]; cbn; auto. destruct (beq k x); auto. Qed.
Lemma plain_run o e m a b c : forall body d, plain body d -> forall w, e_chain e = a :: b :: c -> e_mod e = Some m ->
  s_cur (w_st w) = m -> (m < length (s_mods (w_st w)))%nat ->
  exists st', run_all o e body w = Done tt (with_st w st') /\ s_cur st' = m /\ length (s_mods st') = length (s_mods (w_st w)) /\
    (forall x, bound st' (InModule m) x = match assoc x d with Some v => Some v | None => bound (w_st w) (InModule m) x end) /\
    (forall q x, q <> InModule m -> bound st' q x = bound (w_st w) q x).
Proof.
  intros body d P. induction P as [|x v l d P IH|x v l d P IH]; intros w CH EM CU LT.
  - exists (w_st w). cbn [run_all]. replace (with_st w (w_st w)) with w by (destruct w; reflexivity). auto.
  - destruct (put_mod (w_st w) m x v LT) as (B & OC & _). set (w1 := with_st w (ob_set (w_st w) m x v)).
    assert (R : run_form o e (FDefine x (RVal v)) w = Done tt w1).
    { cbn [run_form value_of bind]. unfold do_define_var. now rewrite CH, EM. }
    destruct (IH w1 CH EM) as (st' & R' & C' & L' & M' & O').
    { exact CU. } { unfold w1. cbn. rewrite upd_length. exact LT. }
    exists st'. split; [|split; [|split; [|split]]].
    + change (run_all o e (FDefine x (RVal v) :: l) w) with (bind (run_form o e (FDefine x (RVal v)) w) (fun _ w1 => run_all o e l w1)).
      rewrite R. exact R'.
    + exact C'.
    + rewrite L'. unfold w1. cbn. apply upd_length.
    + intros y. rewrite M', assoc_app. destruct (assoc y d); auto. cbn [assoc]. destruct (beq_spec x y) as [->|N]; [exact B|].
      apply OC. auto.
    + intros q y N. rewrite O' by auto. apply OC. auto.
  - destruct (put_mod (w_st w) m x v LT) as (B & OC & _). set (w1 := with_st w (ob_set (w_st w) m x v)).
    assert (R : run_form o e (FDefineProc x v) w = Done tt w1).
    { cbn [run_form]. unfold do_define_proc. now rewrite CU. }
    destruct (IH w1 CH EM) as (st' & R' & C' & L' & M' & O').
    { exact CU. } { unfold w1. cbn. rewrite upd_length. exact LT. }
    exists st'. split; [|split; [|split; [|split]]].
    + change (run_all o e (FDefineProc x v :: l) w) with (bind (run_form o e (FDefineProc x v) w) (fun _ w1 => run_all o e l w1)).
      rewrite R. exact R'.
    + exact C'.
    + rewrite L'. unfold w1. cbn. apply upd_length.
    + intros y. rewrite M', assoc_app. destruct (assoc y d); auto. cbn [assoc]. destruct (beq_spec x y) as [->|N]; [exact B|].
      apply OC. auto.
    + intros q y N. rewrite O' by auto. apply OC. auto.
Qed.
(* Loading a file of definitions binds exactly the defined names, to their last
   values, in the new module, and changes no other binding anywhere, whatever is
   bound elsewhere and whichever module is current. *)
Theorem c92_definitions_go_to_the_module : forall fs w n p body d fuel, ~ In n (map fst (w_reg w)) ->
  find (file_exists fs) (candidates w n) = Some p -> file_at fs p = Some body -> body <> [] -> plain body d ->
  exists m w', resolve fs (S fuel) n w = Done m w' /\ ~ exists_place (w_st w) (InModule m) /\
    (forall x, binds w' m x = assoc x d) /\
    (forall q x, q <> InModule m -> bound (w_st w') q x = bound (w_st w) q x) /\
    current w' = current w /\ w_log w' = w_log w ++ [EvLoad n p].
Proof.
  intros fs w n p body d fuel N F B NB P. assert (FF := find_file_first fs w n). rewrite F, B in FF.
  unfold resolve. cbn [sys o_resolve]. unfold resolve_body. rewrite (proj2 (reg_find_none _ _) N). cbn [new_module]. cbv zeta.
  rewrite FF. cbn [make_module_env make_env]. set (m := length (s_mods (w_st w))).
  match goal with |- context [add_log ?r (EvLoad n p)] => set (w2 := add_log r (EvLoad n p)) end.
  assert (LT : (m < length (s_mods (w_st w2)))%nat).
  { unfold w2, m. cbn. rewrite app_length. cbn. lia. }
  assert (B2 : forall q x, bound (w_st w2) q x = bound (w_st w) q x).
  { intros [a|k] x; unfold w2; cbn [add_log w_st with_st set_current s_frames s_mods bound].
    - f_equal. destruct (Nat.ltb_spec a (length (s_frames (w_st w)))) as [L|L]; [now rewrite app_nth1|].
      rewrite app_nth2 by auto. rewrite (nth_overflow (s_frames (w_st w))) by auto. destruct (a - _)%nat as [|[|]]; reflexivity.
    - f_equal. f_equal. destruct (Nat.ltb_spec k (length (s_mods (w_st w)))) as [L|L]; [now rewrite app_nth1|].
      rewrite app_nth2 by auto. rewrite (nth_overflow (s_mods (w_st w))) by auto. destruct (k - _)%nat as [|[|]]; reflexivity. }
  destruct (plain_run (sys fs fuel) (mkEnv (length (s_frames (w_st w)) :: e_chain g_env) (Some m)) m _ _ _ body d P w2 eq_refl eq_refl) as (st' & R & C' & L' & M' & O').
  { reflexivity. } { exact LT. }
  exists m, (enter (s_cur (w_st w)) (with_st w2 st')). split; [|split; [|split; [|split; [|split]]]].
  - destruct body as [|f body]; [congruence|]. 
    transitivity (bind (run_all (sys fs fuel) (mkEnv (length (s_frames (w_st w)) :: e_chain g_env) (Some m)) (f :: body) w2)
      (fun _ w3 => Done m (enter (s_cur (w_st w)) w3))); [reflexivity|]. rewrite R. reflexivity.
  - unfold exists_place, m. lia.
  - intros x. unfold binds. change (bound (w_st (enter (s_cur (w_st w)) (with_st w2 st'))) (InModule m) x) with (bound st' (InModule m) x).
    rewrite M', B2. destruct (assoc x d); auto. unfold bound, m. rewrite nth_overflow by auto. reflexivity.
  - intros q x Q. change (bound (w_st (enter (s_cur (w_st w)) (with_st w2 st'))) q x) with (bound st' q x). now rewrite O', B2.
  - reflexivity.
  - reflexivity.
Qed.
Print Assumptions c92_definitions_go_to_the_module.
(* "Each file is evaluated at most once" is false: two names with the same path
   are two modules, and the file is evaluated for each. *)
Theorem c97_file_evaluated_twice_refuted : exists fs n1 n2 p w,
  session fs (init_world []) [FResolve n1; FResolve n2] w /\ n1 <> n2 /\ w_log w = [EvLoad n1 p; EvLoad n2 p].
Proof.
  exists [(bs "a/b.scm", [FDefine (bs "x") (RVal (VInt 1))])], [ASym (bs "a"); ASym (bs "b")], [ASym (bs "a/b")], (bs "a/b.scm").
  eexists. split; [|split].
  - eapply (session_step _ _ [FResolve [ASym (bs "a"); ASym (bs "b")]] _ _ 3).
    + eapply (session_step _ _ [] _ _ 3); [apply session_start|]. left. exists tt. vm_compute. reflexivity.
    + left. exists tt. vm_compute. reflexivity.
  - discriminate.
  - vm_compute. reflexivity.
Qed.
Print Assumptions c97_file_evaluated_twice_refuted.
(* an instance: (a) uses (b) and (b) uses (a), both found through %load-path; the
   file of (b) also exists in the current directory, and is not taken *)
Definition ex_a : list atom := [ASym (bs "a")].
Definition ex_b : list atom := [ASym (bs "lib"); ASym (bs "b")].
Definition ex_fs : list (list Z * list form) :=
  [(bs "src/a.scm", [FDefineModule ex_a [DAtom (ASym (bs "use-module")); DList ex_b]; FDefinePublic (bs "x") (RVal (VInt 1)); FRef (bs "y")]);
   (bs "lib/b.scm", [FFail]);
   (bs "src/lib/b.scm", [FDefineModule ex_b [DAtom (ASym (bs "use-module")); DList ex_a]; FDefine (bs "hidden") (RVal (VInt 3));
                         FDefinePublic (bs "y") (RVal (VInt 2))])].
Definition ex_path : form := FSet (bs "%load-path") (RVal (VList [VStr (bs "none"); VStr (bs "src/")] false)).
Fixpoint run_top (fs : list (list Z * list form)) (l : list form) (w : world) : world :=
  match l with
  | [] => w
  | f :: r => match top fs 20 f w with Done _ w1 => run_top fs r w1 | Raised w1 => run_top fs r w1 | OutOfFuel => w end
  end.
Example c92_ex :
  let w := run_top ex_fs [ex_path; FUse [DList ex_a]; FUse [DList ex_b]; FRef (bs "x"); FRef (bs "hidden")] (init_world []) in
  w_log w = [EvLoad ex_a (bs "src/a.scm"); EvLoad ex_b (bs "src/lib/b.scm"); EvVal (VInt 2); EvPrint ex_a; EvPrint ex_b; EvVal (VInt 1)] /\
  names w ex_b 2 /\ current w = 0%nat /\
  plain [FDefine (bs "p") (RVal (VInt 1)); FDefineProc (bs "q") VNone; FDefine (bs "p") (RVal (VInt 2))] [(bs "p", VInt 2); (bs "q", VNone); (bs "p", VInt 1)].
Proof.
  split; [vm_compute; reflexivity|]. split; [vm_compute; auto|]. split; [vm_compute; reflexivity|].
  apply (plain_var _ _ _ [(bs "p", VInt 2); (bs "q", VNone)]). apply (plain_proc _ _ _ [(bs "p", VInt 2)]).
  apply (plain_var _ _ _ []). constructor.
Qed.

(** * C93. The current module *)
(* Resolving, using, referring, exporting, defining: whatever the files loaded on
   the way do, define-module and set-current-module included, the current module is
   the same afterwards if no error was raised. *)
Definition stays (f : form) : Prop :=
  match f with FDefineModule _ _ | FEnter _ | FTry _ => False | _ => True end.
Theorem c93_current_module_kept : forall fs fuel f w w', reachable fs w -> stays f -> top fs fuel f w = Done tt w' ->
  current w' = current w.
Proof.
  intros fs fuel f w w' R Q H. assert (W := reachable_wf _ _ R). assert (O := sys_good fs fuel).
  assert (E : env_ok w g_env) by discriminate. assert (I0 := wf_cur _ W).
  assert (G : good w (at_cur (current w)) (top fs fuel f w)).
  { unfold top. destruct f as [x r|x v|x r|x|n l|l|l|l|x r|x v|n|n|n x|n s| |gs]; try contradiction Q; cbn [run_form]; cbv zeta.
    - eapply good_bind; [auto|eapply value_of_good; eauto|]. intros v w1 W1 E1 C1. apply good_done; [apply ob_step_wf; auto; now apply define_var_step|].
      unfold at_cur. cbn [with_st w_st]. rewrite (os_cur _ _ (define_var_step w1 g_env x v W1 ltac:(discriminate))). exact C1.
    - apply good_done; [apply ob_step_wf; auto; now apply define_proc_step|]. exact (os_cur _ _ (define_proc_step w x v W)).
    - eapply good_bind; [auto|eapply value_of_good; eauto|]. intros v w1 W1 E1 C1. apply good_done; [apply ob_step_wf; auto; now apply do_set_step|].
      unfold at_cur. cbn [with_st w_st]. rewrite (os_cur _ _ (do_set_step w1 g_env x v W1)). exact C1.
    - eapply good_bind; [auto|eapply (value_of_good _ O g_env (RRef x)); eauto|]. intros v w1 W1 E1 C1. apply good_done; [apply add_log_wf; auto; discriminate|]. exact C1.
    - apply use_all_good; auto.
    - apply export_all_good; auto.
    - apply re_export_all_good; auto.
    - eapply good_bind; [auto|eapply value_of_good; eauto|]. intros v w1 W1 E1 C1.
      assert (S1 := define_var_step w1 g_env x v W1 ltac:(discriminate)).
      destruct (ob_step_wf w1 _ W1 S1) as [W2 E2].
      eapply good_step; [auto|exact E2|]. eapply export1_good; auto; [apply wf_cur, W2|]. cbn [with_st w_st]. rewrite (os_cur _ _ S1). exact C1.
    - destruct (ob_step_wf w _ W (define_proc_step w x v W)) as [W2 E2].
      eapply good_step; [auto|exact E2|]. eapply export1_good; auto.
    - destruct n as [|a n]; [apply good_raise; auto|].
      eapply good_bind; [auto|eapply rslv; eauto|]. intros m w1 W1 E1 [_ C1]. apply good_here; auto.
    - destruct n as [|a n]; [apply good_raise; auto|].
      eapply good_bind; [auto|eapply rslv; eauto|]. intros m w1 W1 E1 [R1 C1].
      destruct (beq x (bs "%module-public-interface")); [apply good_done; [apply add_log_wf; auto; discriminate|exact C1]|].
      eapply good_bind; [auto|eapply srch; eauto; eapply in_reg_ids; eauto|]. intros [v|] w2 W2 E2 C2; [|apply good_raise; auto].
      apply good_done; [apply add_log_wf; auto; discriminate|exact C2].
    - destruct n as [|a n]; [apply good_raise; auto|]. destruct s as [|b s].
      + eapply good_bind; [auto|eapply rslv; eauto|]. intros m w1 W1 E1 _. apply good_raise; auto.
      + eapply good_bind; [auto|eapply rslv; eauto|]. intros m w1 W1 E1 [R1 C1].
        eapply good_bind; [auto|eapply rslv; eauto|]. intros u w2 W2 E2 [R2 C2].
        apply good_done; [apply add_use_wf; auto; [eapply ext_ids; [exact E2|]|]; eapply in_reg_ids; eauto|exact C2].
    - apply good_raise; auto. }
  rewrite H in G. apply G.
Qed.
Print Assumptions c93_current_module_kept.
(* The same for resolve-module, from any reachable world and module code. *)
Theorem c93_resolve_keeps : forall fs fuel n w m w', reachable fs w -> resolve fs fuel n w = Done m w' ->
  current w' = current w /\ names w' n m.
Proof.
  intros fs fuel n w m w' R H. assert (G := og_resolve _ (sys_good fs fuel) n w (reachable_wf _ _ R)). unfold resolve in H. rewrite H in G.
  destruct G as (_ & _ & A & B). split; auto.
Qed.
Print Assumptions c93_resolve_keeps.
(* define-module and set-current-module make the named module current. *)
Theorem c93_enter : forall fs fuel n opts w w', reachable fs w ->
  top fs fuel (FDefineModule n opts) w = Done tt w' \/ top fs fuel (FEnter n) w = Done tt w' -> names w' n (current w').
Proof.
  intros fs fuel n opts w w' R H. assert (W := reachable_wf _ _ R). assert (O := sys_good fs fuel).
  destruct H as [H|H]; unfold top in H; cbn [run_form] in H; (destruct n as [|a n]; [discriminate|]).
  - assert (NM := named_module_good (a :: n) w W).
    assert (N1 : let (m, w1) := named_module (a :: n) w in In (a :: n, m) (w_reg w1)).
    { unfold named_module. destruct (reg_find (a :: n) (w_reg w)) eqn:Q; [now apply reg_find_in|]. now left. }
    destruct (named_module (a :: n) w) as [m w1]. destruct NM as (W1 & E1 & I1 & _).
    assert (G := do_opts_good _ O m _ opts false w1 W1 I1 eq_refl).
    destruct (do_opts (sys fs fuel) m false opts w1) as [u w2|w2|]; cbn [bind] in H; try discriminate.
    injection H as <-. destruct G as (_ & X & _). destruct (ext_reg _ _ X) as [l Q]. unfold names. cbn [enter with_st w_reg w_st set_current current s_cur].
    rewrite Q. apply in_or_app. auto.
  - assert (G := og_resolve _ O (a :: n) w W). destruct (o_resolve (sys fs fuel) (a :: n) w) as [u w2|w2|]; cbn [bind] in H; try discriminate.
    injection H as <-. destruct G as (_ & _ & A & _). exact A.
Qed.
Print Assumptions c93_enter.
(* With an error the claim is false: for every module name not yet resolved whose
   file fails, a use-modules form inside a catch ends normally and leaves the
   half-loaded module current and registered; it is never loaded again. *)
Theorem c97_error_leaves_module_refuted : forall fs w n p rest fuel, reachable fs w -> n <> [] -> ~ In n (map fst (w_reg w)) ->
  find (file_exists fs) (candidates w n) = Some p -> file_at fs p = Some (FFail :: rest) ->
  exists m w', top fs (S fuel) (FTry [FUse [DList n]]) w = Done tt w' /\ names w' n m /\ current w' = m /\ current w <> m /\
    forall l w2 k, session fs w' l w2 -> resolve fs (S k) n w2 = Done m w2.
Proof.
  intros fs w n p rest fuel R NE N F B. assert (W := reachable_wf _ _ R). assert (FF := find_file_first fs w n). rewrite F, B in FF.
  set (m := length (s_mods (w_st w))). destruct n as [|a n]; [congruence|].
  assert (X : exists w', top fs (S fuel) (FTry [FUse [DList (a :: n)]]) w = Done tt w' /\ current w' = m /\ w_reg w' = (a :: n, m) :: w_reg w).
  { unfold top. rewrite run_try. destruct (make_env (w_st w) g_env) as [e1 st1] eqn:ME. unfold make_env in ME. injection ME as <- <-.
    cbn [run_all run_form use_all sys o_resolve bind]. unfold resolve_body. cbn [with_st w_reg]. rewrite (proj2 (reg_find_none _ _) N).
    match goal with |- context [find_file fs ?s (a :: n)] => change (find_file fs s (a :: n)) with (find_file fs (w_st w) (a :: n)) end.
    rewrite FF. cbn [new_module make_module_env make_env run_all run_form bind]. eexists. split; [reflexivity|]. split; reflexivity. }
  destruct X as (w' & X1 & X2 & X3). exists m, w'. split; [exact X1|]. split; [unfold names; rewrite X3; now left|]. split; [exact X2|]. split.
  - intros Q. assert (L := wf_lt _ W _ (wf_cur _ W)). unfold current, m in Q. lia.
  - intros l w2 k S2. eapply c92_resolved_for_ever; [|unfold names; rewrite X3; now left|exact S2].
    destruct R as (g & l0 & R). exists g, (l0 ++ [FTry [FUse [DList (a :: n)]]]). eapply session_step; [exact R|]. left. exists tt. exact X1.
Qed.
Print Assumptions c97_error_leaves_module_refuted.
Example c93_ex :
  let fs := [(bs "bad.scm", [FFail]); (bs "good.scm", [FDefineModule [ASym (bs "other")] []; FDefineProc (bs "f") VNone])] in
  let bad := [ASym (bs "bad")] in
  let w := run_top fs [FUse [DList [ASym (bs "good")]]] (init_world []) in
  current w = 0%nat /\ binds w 2 (bs "f") = Some VNone /\ ~ In bad (map fst (w_reg w)) /\
  find (file_exists fs) (candidates w bad) = Some (bs "bad.scm") /\ current (run_top fs [FTry [FUse [DList bad]]] w) = 3%nat /\ reachable fs (init_world []).
Proof.
  split; [vm_compute; reflexivity|]. split; [vm_compute; reflexivity|]. split; [vm_compute; intros [H|[H|[H|[]]]]; discriminate|].
  split; [vm_compute; reflexivity|]. split; [vm_compute; reflexivity|]. exists [], []. constructor.
Qed.
