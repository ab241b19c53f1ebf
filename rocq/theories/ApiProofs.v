(** Every guarded call keeps the catch stack in order and comes back. *)
From Coq Require Import String Lia.
From Verif Require Import Base ParseModel PrintModel EnvModel EnvSpec EnvProofs EvalModel EvalInv EvalSpec EvalInv3 EvalInv4 EvalInv5 ApiModel ApiSpec.
Local Open Scope list_scope.

(** Between two calls from the host. *)
Record idle (s : api) : Prop := mkIdle { i_n : N (a_st s); i_live : d_live (s_dyn (a_st s)) = [] }.
Definition good (s0 : api) (o : aout) : Prop :=
  match o with
  | AOk _ s => N (a_st s) /\ since (a_st s0) (a_st s)
  | AThrown j _ _ s => N (a_st s) /\ since (a_st s0) (a_st s) /\ In j (map fst (d_catch (s_dyn (a_st s)))) /\ In j (d_live (s_dyn (a_st s)))
  | AJump k _ s => N (a_st s) /\ since (a_st s0) (a_st s) /\ In k (d_live (s_dyn (a_st s))) /\ In k (map fst (d_conts (s_dyn (a_st s))))
  | AExit s => keeps (a_st s0) (a_st s) /\ ~ catch_alls (a_st s)
  | _ => True
  end.
Lemma good_lift m s : Qn (a_st s) (ending_of (m (a_st s))) -> N (a_st s) -> good s (lift m s).
Proof. intros H n. specialize (H n). unfold lift. destruct (m (a_st s)); cbn in *; auto. Qed.
Lemma good_err s : N (a_st s) -> good s (lift err s).
Proof. apply good_lift, Qn_throw. Qed.
Lemma good_eval prim n e x s : N (a_st s) -> good s (lift (eval prim n e x) s).
Proof. apply good_lift, eval_stack. Qed.
Lemma good_trans s s1 o : since (a_st s) (a_st s1) -> good s1 o -> good s o.
Proof.
  intros H. destruct o; cbn; auto.
  - intros []. eauto using since_trans.
  - intros (? & ? & ? & ?). eauto 6 using since_trans.
  - intros (? & ? & ? & ?). eauto 6 using since_trans.
  - intros []. split; auto. eapply keeps_trans; eauto. apply H.
Qed.
Lemma N_push tag st : N st -> N (push_catch tag st).
Proof.
  intros [c1 c2 c3]. split; cbn.
  - intros i [<-|I]; [lia|]. specialize (c1 i I). lia.
  - now apply below_push.
  - apply (below_le _ _ _ c3). lia.
Qed.
Lemma dead_since tag st s : N st -> N s -> since (push_catch tag st) s ->
  N (dead (d_next (s_dyn st)) s) /\ since st (dead (d_next (s_dyn st)) s).
Proof.
  intros B0 [c1 c2 c3] [l1 l2 l3 l6 l5 l4]. cbn in l1, l2, l3, l6, l5. set (id := d_next (s_dyn st)) in *.
  assert (NL : ~ In id (d_live (s_dyn st))) by (intro I; apply (n_live _ B0) in I; unfold id in *; lia).
  split.
  - split; cbn; auto. intros i I. apply in_remove_iff in I as [I _]. auto.
  - split; cbn; [lia| | | |auto|].
    + intro i. rewrite in_remove_iff, l2. fold id. split; [intuition congruence|]. intro I. split; auto. intro. subst. contradiction.
    + intros j I. destruct (l3 j I) as [J|J]; auto; right; lia.
    + intros j I. destruct (l6 j I) as [[J|J]|J]; auto; right; unfold id in *; lia.
    + eapply keeps_trans; [|exact l4]. now exists [(id, tag)].
Qed.
(* popping one entry off a stack that still holds more than those of [st] *)
Lemma pop_since st s f : N s -> since st s -> d_catch (s_dyn (f (pop_catch s))) = tl (d_catch (s_dyn s)) ->
  d_live (s_dyn (f (pop_catch s))) = d_live (s_dyn s) -> d_conts (s_dyn (f (pop_catch s))) = d_conts (s_dyn s) ->
  d_next (s_dyn (f (pop_catch s))) = d_next (s_dyn s) ->
  (exists x, d_catch (s_dyn s) = x ++ d_catch (s_dyn st) /\ x <> []) ->
  N (f (pop_catch s)) /\ since st (f (pop_catch s)).
Proof.
  intros [c1 c2 c3] [l1 l2 l3 l6 l5 l4] E1 E2 E3 E4 (x & E & NE). split.
  - split; rewrite ?E1, ?E2, ?E3, ?E4; auto. intros i t I. apply (c2 i t). destruct (d_catch (s_dyn s)); [destruct I|now right].
  - split; rewrite ?E1, ?E2, ?E3, ?E4; auto.
    + intros j I. apply l6. destruct (d_catch (s_dyn s)); [destruct I|now right].
    + destruct (tl_app x (d_catch (s_dyn st)) NE) as [y F]. exists y. rewrite E1, E. exact F.
Qed.
Lemma good_guarded body : (forall s, N (a_st s) -> good s (body s)) -> forall s, N (a_st s) -> good s (guarded body s).
Proof.
  intros H s n. unfold guarded. destruct (100 <=? _)%Z; [now apply good_err|].
  set (st := a_st s) in *. set (id := d_next (s_dyn st)).
  specialize (H (on_st (push_catch (VBool true)) s) (N_push _ _ n)).
  destruct (body _) as [r s'|j k a s'|j v s'|s'| | |]; cbn in H |- *; auto; fold st in H.
  - destruct H as (n1 & l1). destruct (dead_since _ _ _ n n1 l1) as (n2 & l2).
    destruct l1 as [q1 q2 q3 q6 q5 [x q4]]. cbn in q4.
    apply (pop_since st (dead id (a_st s')) (fun z => z) n2 l2); auto. cbn. exists (x ++ [(id, VBool true)]).
    rewrite <- app_assoc. cbn. split; [exact q4|]. destruct x; discriminate.
  - destruct H as (n1 & l1 & i1 & i2). destruct (dead_since _ _ _ n n1 l1) as (n2 & l2).
    destruct (Nat.eqb_spec j id) as [-> |NE].
    + cbn. destruct l1 as [q1 q2 q3 q6 q5 [x q4]]. cbn in q4.
      set (g := fun z => dead id (note_catch (d_wind (s_dyn st)) z)).
      assert (G : forall z, d_catch (s_dyn (g z)) = d_catch (s_dyn z) /\ d_live (s_dyn (g z)) = d_live (s_dyn (dead id z)) /\
        d_conts (s_dyn (g z)) = d_conts (s_dyn z) /\ d_next (s_dyn (g z)) = d_next (s_dyn z)).
      { intro z. unfold g, note_catch. destruct (list_eq_dec _ _ _); cbn; auto. }
      destruct (G (pop_catch (a_st s'))) as (G1 & G2 & G3 & G4).
      change (N (g (pop_catch (a_st s'))) /\ since st (g (pop_catch (a_st s')))).
      destruct n2 as [c1 c2 c3]. destruct l2 as [p1 p2 p3 p6 p5 p4]. cbn in c1, c2, c3, p1, p2, p3, p6, p5.
      generalize dependent (g (pop_catch (a_st s'))). intros z G1 G2 G3 G4. cbn in G1, G2, G3, G4. fold id in c1, p2.
      assert (TT : exists y, tl (d_catch (s_dyn (a_st s'))) = y ++ d_catch (s_dyn st)).
      { rewrite q4. destruct (tl_keeps x (id, VBool true) (d_catch (s_dyn st)) _ eq_refl) as [y E]. now exists y. }
      assert (SUB : forall p, In p (tl (d_catch (s_dyn (a_st s')))) -> In p (d_catch (s_dyn (a_st s')))).
      { intros p I. destruct (d_catch (s_dyn (a_st s'))); [destruct I|now right]. }
      assert (SUB2 : forall p, In p (map fst (tl (d_catch (s_dyn (a_st s'))))) -> In p (map fst (d_catch (s_dyn (a_st s'))))).
      { intros p I. destruct (d_catch (s_dyn (a_st s'))); [destruct I|now right]. }
      split; split; rewrite ?G1, ?G2, ?G3, ?G4; auto.
      * intros i t I. apply (c2 i t). auto.
      * destruct TT as [y TT]. exists y. now rewrite G1.
    + cbn. split; [|split; [|split]].
      * eapply alike_N; [|exact n2]. al.
      * eapply since_trans; [exact l2|]. apply alike_since. al.
      * exact i1.
      * now apply in_remove_iff.
  - destruct H as (n1 & l1 & i1 & i2). destruct (dead_since _ _ _ n n1 l1) as (n2 & l2). split; [|split; [|split]].
    + eapply alike_N; [|exact n2]. al.
    + eapply since_trans; [exact l2|]. apply alike_since. al.
    + cbn. apply in_remove_iff. split; auto. intro. subst j. destruct l1 as [q1 q2 q3 q6 q5 q4]. cbn in q3.
      destruct (q3 _ i2) as [J|J]; [|unfold id in *; lia]. revert J. apply not_below, (n_conts _ n).
    + exact i2.
  - destruct H as (k1 & k2). split; auto. eapply keeps_trans; [|exact k1]. exists [(id, VBool true)]. reflexivity.
Qed.
(* the table of catches is not full *)
Definition fitted (s : api) := (length (d_catch (s_dyn (a_st s))) < 100)%nat.
(* at top level a guarded call comes back *)
Lemma guarded_top body s : (forall s, N (a_st s) -> good s (body s)) -> idle s -> fitted s ->
  host_survives (guarded body s).
Proof.
  intros H [n lv] R.
  pose proof (good_guarded body H s n) as G.
  unfold guarded in *. unfold fitted in R. destruct (Z.leb_spec 100 (Z.of_nat (length (d_catch (s_dyn (a_st s)))))); [lia|].
  set (st := a_st s) in *. set (id := d_next (s_dyn st)) in *.
  specialize (H (on_st (push_catch (VBool true)) s) (N_push _ _ n)).
  destruct (body _) as [r s'|j k a s'|j v s'|s'| | |]; cbn in G, H |- *; auto; fold st in H.
  - destruct (Nat.eqb_spec j id); cbn; auto. cbn in G. destruct G as (_ & l & _ & i). apply (s_live _ _ l) in i. fold st in i. now rewrite lv in i.
  - destruct G as (_ & l & i & _). apply (s_live _ _ l) in i. fold st in i. now rewrite lv in i.
  - destruct H as ([x E] & F). apply F. exists id. cbn in E. fold id in E. rewrite E. apply in_or_app. right. now left.
Qed.
Lemma good_idle s r s' : idle s -> good s (AOk r s') -> idle s'.
Proof.
  intros [n lv] (n1 & l1). split; auto. apply incl_l_nil. intros i I. apply (s_live _ _ l1) in I. now rewrite lv in I.
Qed.


(** The table never holds more than 100 entries, so a guarded call, which has
    removed at least its own, leaves at most 99. *)
Definition fitting (s : api) (o : aout) : Prop :=
  fits (a_st s) -> match o with AOk _ s' | AThrown _ _ _ s' | AJump _ _ s' => fits (a_st s') | _ => True end.
Lemma fitting_lift m s : Qf (a_st s) (ending_of (m (a_st s))) -> fitting s (lift m s).
Proof. intros H F. specialize (H F). unfold lift. destruct (m (a_st s)); cbn in *; auto. Qed.
Lemma fitting_err s : fitting s (lift err s).
Proof. apply fitting_lift, Qf_throw. Qed.
Definition tight (o : aout) : Prop :=
  match o with AOk _ s' => (length (d_catch (s_dyn (a_st s'))) < 100)%nat | AThrown _ _ _ s' | AJump _ _ s' => fits (a_st s') | _ => True end.
Lemma tl_short {A} (l : list A) : (length l <= 100)%nat -> (length (tl l) < 100)%nat.
Proof. destruct l; cbn [tl length]; lia. Qed.
Lemma note_d w st : d_catch (s_dyn (note_catch w st)) = d_catch (s_dyn st).
Proof. unfold note_catch. destruct (list_eq_dec _ _ _); auto. Qed.
Lemma tight_guarded body s : (forall s, fitting s (body s)) -> fits (a_st s) -> tight (guarded body s).
Proof.
  intros H F. unfold guarded. destruct (Z.leb_spec 100 (Z.of_nat (length (d_catch (s_dyn (a_st s)))))) as [L|L].
  { pose proof (fitting_err s F) as X. unfold lift in *. unfold err, throw in *. destruct (find_handler _ _ _); cbn in *; auto. }
  assert (F1 : fits (push_catch (VBool true) (a_st s))) by (change (S (length (d_catch (s_dyn (a_st s)))) <= 100)%nat; lia).
  specialize (H (on_st (push_catch (VBool true)) s) F1).
  destruct (body _) as [r s'|j k a s'|j v s'|s'| | |]; cbn [tight]; auto.
  - now apply tl_short.
  - destruct (Nat.eqb j _); [|exact H]. change (length (d_catch (s_dyn (note_catch (d_wind (s_dyn (a_st s))) (pop_catch (a_st s'))))) < 100)%nat. rewrite note_d. now apply tl_short.
Qed.
Lemma fitting_guarded body s : (forall s, fitting s (body s)) -> fitting s (guarded body s).
Proof.
  intros H F. pose proof (tight_guarded body s H F) as T. destruct (guarded body s); auto. cbn [tight] in T. unfold fits. lia.
Qed.

Section Api.
Variable prim : list Z -> list val -> pres.
Lemma good_pscm_eval n x s : N (a_st s) -> good s (pscm_eval prim n x s).
Proof. apply good_guarded. intros. now apply good_eval. Qed.
Lemma good_read t s : N (a_st s) -> good s (read_one t s).
Proof.
  intro n. unfold read_one. destruct (parse t) as [d| | | |]; try exact I; [|now apply good_err].
  destruct (program d); [|exact I]. split; auto using since_refl.
Qed.
Lemma good_parse t s : N (a_st s) -> good s (pscm_parse t s).
Proof. apply good_guarded. intros. now apply good_read. Qed.
Lemma good_string_body n t s : N (a_st s) ->
  good s (match pscm_parse t s with AOk (Some x) s' => pscm_eval prim n x s' | o => o end).
Proof.
  intro H. pose proof (good_parse t s H) as G. destruct (pscm_parse t s) as [[x|] s'| | | | | |]; auto.
  destruct G as (n1 & l1). eapply good_trans; [exact l1|]. now apply good_pscm_eval.
Qed.
Lemma good_string n t s : N (a_st s) -> good s (pscm_eval_string prim n t s).
Proof. apply good_guarded. intros. now apply good_string_body. Qed.
Lemma good_all n xs : forall acc s, N (a_st s) -> good s (eval_all prim n xs acc s).
Proof.
  induction xs as [|x xs IH]; intros acc s H; cbn [eval_all]; [split; auto using since_refl|].
  pose proof (good_pscm_eval n x s H) as G. destruct (pscm_eval prim n x s) as [r s'| | | | | |]; auto.
  destruct G as (n1 & l1). eapply good_trans; [exact l1|]. now apply IH.
Qed.
Lemma good_file n f s : N (a_st s) -> good s (pscm_eval_file prim n f s).
Proof.
  intro H. unfold pscm_eval_file. destruct f as [t|]; [|split; auto using since_refl].
  destruct (parse_all t) as [l| | | |]; try exact I; [|now apply good_err].
  destruct (programs l); [now apply good_all|exact I].
Qed.
Lemma fitting_eval n x s : fitting s (pscm_eval prim n x s).
Proof. apply fitting_guarded. intro. apply fitting_lift, eval_fits. Qed.
Lemma fitting_read t s : fitting s (read_one t s).
Proof.
  intro F. unfold read_one. destruct (parse t); try exact I; [|exact (fitting_err s F)]. destruct (program a); [exact F|exact I].
Qed.
Lemma fitting_string_body n t s :
  fitting s (match pscm_parse t s with AOk (Some x) s' => pscm_eval prim n x s' | o => o end).
Proof.
  intro F. pose proof (fitting_guarded (read_one t) s (fitting_read t) F) as G. unfold pscm_parse. destruct (guarded _ s) as [[x|] s'| | | | | |]; auto.
  now apply fitting_eval.
Qed.
Lemma fitted_fits s : fitted s -> fits (a_st s). Proof. unfold fitted, fits. lia. Qed.
Lemma fitted_eval n x s r s' : fitted s -> pscm_eval prim n x s = AOk r s' -> fitted s'.
Proof.
  intros F E. pose proof (tight_guarded _ s (fun s => fitting_lift _ s (eval_fits prim n g_env x _)) (fitted_fits s F)) as T.
  fold (pscm_eval prim n x s) in T. now rewrite E in T.
Qed.
Lemma fitted_string n t s r s' : fitted s -> pscm_eval_string prim n t s = AOk r s' -> fitted s'.
Proof.
  intros F E. pose proof (tight_guarded _ s (fitting_string_body n t) (fitted_fits s F)) as T.
  fold (pscm_eval_string prim n t s) in T. now rewrite E in T.
Qed.
Lemma fitted_all n xs : forall acc s r s', fitted s -> eval_all prim n xs acc s = AOk r s' -> fitted s'.
Proof.
  induction xs as [|x xs IH]; intros acc s r s' F; cbn [eval_all]; [congruence|].
  destruct (pscm_eval prim n x s) eqn:E; try discriminate. eauto using fitted_eval.
Qed.
Lemma err_not_ok s r s' : lift err s <> AOk r s'.
Proof. unfold lift, err, throw. destruct (find_handler _ _ _); discriminate. Qed.
Lemma fitted_file n f s r s' : fitted s -> pscm_eval_file prim n f s = AOk r s' -> fitted s'.
Proof.
  intro F. unfold pscm_eval_file. destruct f as [t|]; [|congruence]. destruct (parse_all t); try discriminate.
  - destruct (programs a); [now apply fitted_all|discriminate].
  - intro E. exfalso. revert E. apply err_not_ok.
Qed.
Lemma session_fitted init s : fresh init -> session prim init s -> fitted s.
Proof.
  intros (F1 & F2 & F3). induction 1 as [|n x r s s' _ IH E|n t r s s' _ IH E|n f r s s' _ IH E];
    eauto using fitted_eval, fitted_string, fitted_file.
  unfold fitted. cbn. rewrite F1. cbn [length]. lia.
Qed.
Lemma session_idle init s : fresh init -> session prim init s -> idle s.
Proof.
  intros (F1 & F2 & F3). induction 1 as [|n x r s s' _ IH E|n t r s s' _ IH E|n f r s s' _ IH E].
  - split; cbn; auto. split; cbn; rewrite ?F1, ?F2, ?F3; [intros ? []|intros ? ? []|intros ? ? []].
  - apply (good_idle s r); auto. rewrite <- E. apply good_pscm_eval, IH.
  - apply (good_idle s r); auto. rewrite <- E. apply good_string, IH.
  - apply (good_idle s r); auto. rewrite <- E. apply good_file, IH.
Qed.
End Api.
