(** Rules for cond, case and do. *)
From Coq Require Import String Lia Setoid Morphisms.
From Verif Require Import Base ParseModel PrintModel EnvModel EnvSpec EnvProofs EvalModel EvalMono EvalInv EvalInv2 EvalSpec EvalProofs EvalProofs2.
Local Open Scope string_scope.
Local Open Scope list_scope.

Section Forms.
Variable prim : list Z -> list val -> pres.
Notation run := (runs prim).

Lemma is_sym_val_iff v s : is_sym_val v s = true <-> v = sym s.
Proof.
  unfold is_sym_val, sym. destruct v; split; intro H; try discriminate.
  - destruct (beq_spec n (bs s)); [now subst|discriminate].
  - injection H as ->. apply beq_refl.
Qed.
Lemma is_sym_val_not v s : v <> sym s -> is_sym_val v s = false.
Proof. intro H. destruct (is_sym_val v s) eqn:E; auto. apply is_sym_val_iff in E. congruence. Qed.
Lemma mono_cond e cs : monotone (fun n => eval_cond (eval prim n) e cs).
Proof. intros n n' L. apply m_cond. now apply hev. Qed.
Lemma body_lim e b bs : body_run prim e (b :: bs) == lim (fun n => eval_body (eval prim n) e (b :: bs)).
Proof. symmetry. apply lim_body. Qed.

Definition no_arrow (c : clause) : Prop := match c with Arrow _ _ => False | _ => True end.
(* a clause with a test *)
Lemma cond_test e t body cs : t <> sym "else" ->
  lim (fun n => eval_cond (eval prim n) e (VList (t :: body) false :: cs)) ==
  (p <~ run e t ;;
   if truthy p then
     match body with
     | [] => returns (VBool true)
     | b1 :: more => fun st o =>
         if is_sym_val b1 "=>" && match env_exist st e (bs "=>") with None => true | Some _ => false end
         then match more with
              | [] => asserts st o
              | pf :: _ =>
                 (f <~ run e pf ;; lim (fun n => match f with
                        | VSym x =>
                            let! b := gets (fun st => env_exist st e x) in
                            match b with
                            | Some g => eval prim n e (VList [g; quoted p] false)
                            | None => ret f
                            end
                        | _ => eval prim n e (VList [f; quoted p] false)
                        end)) st o
              end
         else body_run prim e body st o
     end
   else lim (fun n => eval_cond (eval prim n) e cs)).
Proof.
  intro NE. cbn [eval_cond cast_list]. rewrite (is_sym_val_not t "else" NE).
  assert (MF : forall p f, monotone (fun n => match f with
                        | VSym x =>
                            let! b := gets (fun st => env_exist st e x) in
                            match b with
                            | Some g => eval prim n e (VList [g; quoted p] false)
                            | None => ret f
                            end
                        | _ => eval prim n e (VList [f; quoted p] false)
                        end)).
  { intros p f. destruct f; try apply mono_eval. apply mono_bind; [apply mono_const|]. intros [g|]; [apply mono_eval|apply mono_const]. }
  match goal with |- lim (fun n => ebind (eval prim n e t) (@?K n)) == _ =>
    assert (MK : forall a, monotone (fun n => K n a)) end.
  { intro p. cbv beta. apply mono_if; [|apply mono_cond]. destruct body as [|b1 more]; [apply mono_const|].
    apply mono_bind; [apply mono_const|]. intro c. apply mono_if; [|apply mono_body]. destruct more; [apply mono_const|].
    apply mono_bind; [apply mono_eval|apply MF]. }
  rewrite lim_bind; [|apply mono_eval|exact MK].
  apply andthen_cong; [reflexivity|]. intro p. destruct (truthy p); [|reflexivity].
  destruct body as [|b1 more]; [apply lim_ret|]. intros st o. rewrite lim_gets.
  destruct (is_sym_val b1 "=>" && _); [|apply lim_body].
  destruct more as [|pf more]; [apply lim_abort|]. refine (lim_bind _ _ _ _ st o); [apply mono_eval|apply MF].
Qed.
Lemma cond_ok : forall cs e, Forall clause_ok cs ->
  (forall st o, cond_run prim (fun _ => VBool true) e cs st o -> lim (fun n => eval_cond (eval prim n) e (map clause_val cs)) st o) /\
  (Forall no_arrow cs -> forall st o, lim (fun n => eval_cond (eval prim n) e (map clause_val cs)) st o -> cond_run prim (fun _ => VBool true) e cs st o).
Proof.
  induction cs as [|c cs IH]; intros e H.
  - split; [|intros _]; intros st o; apply lim_ret.
  - inversion H as [|? ? H1 H2]; subst. destruct (IH e H2) as [I1 I2]. destruct c as [t|t b bs|t f|b bs]; cbn [map clause_val cond_run].
    + split; [intros st o K; apply cond_test; auto; revert K|intros N st o K; apply (proj1 (cond_test e t [] (map clause_val cs) H1 st o)) in K; revert K; inversion N; subst];
        apply andthen_imp; auto; intros p st1 _; destruct (truthy p); auto.
    + destruct H1 as [H1 H3].
      split; [intros st o K; apply cond_test; auto; revert K|intros N st o K; apply (proj1 (cond_test e t (b :: bs) (map clause_val cs) H1 st o)) in K; revert K; inversion N; subst];
        apply andthen_imp; auto; intros p st1 _; destruct (truthy p); auto; rewrite (is_sym_val_not b "=>" H3); cbn [andb]; auto.
    + split; [|intros N; inversion N; contradiction].
      intros st o K. apply cond_test; auto. revert K.
      apply andthen_imp; auto; intros p st1 _; destruct (truthy p); auto. intros [A K]. unfold arrow_free in A. rewrite A.
      change (is_sym_val (sym "=>") "=>" && true) with true. cbv iota. revert K. apply andthen_imp; auto.
      intros g st2 _ [G K]. destruct g; try exact K. discriminate.
    + cbn [eval_cond cast_list]. change (is_sym_val (sym "else") "else") with true. cbv iota.
      split; [intros st o K; apply lim_body; auto|intros _ st o K; apply lim_body in K; auto].
Qed.

(** ** case *)
Lemma mono_case e k cs : monotone (fun n => eval_case_clauses (eval prim n) e k cs).
Proof. intros n n' L. apply m_case. now apply hev. Qed.
Lemma case_ok e k : forall cs, lim (fun n => eval_case_clauses (eval prim n) e k (map case_val cs)) == case_run prim val_eq e k cs.
Proof.
  induction cs as [|[ds b bs|b bs] cs IH]; [apply lim_ret| |].
  - cbn [map case_val case_run]. destruct ds as [|d ds].
    + cbn [eval_case_clauses cast_list mklist is_sym_val existsb]. apply IH.
    + cbn [eval_case_clauses cast_list mklist is_sym_val]. destruct (existsb (val_eq k) (d :: ds)); [apply lim_body|apply IH].
  - cbn [map case_val case_run eval_case_clauses cast_list]. change (is_sym_val (sym "else") "else") with true. apply lim_body.
Qed.

(** ** do *)
Lemma insert_up_own st fe x v : search_chain st (e_chain fe) x = None -> env_insert st fe x v true = env_insert st fe x v false.
Proof.
  intro H. unfold env_insert, search_entry. rewrite H. destruct (e_chain fe) as [|a c]; [reflexivity|].
  cbn [firstn search_chain] in *. destruct (assoc x (frame_at st a)); [discriminate|reflexivity].
Qed.
Lemma insert_up_head st fe x v : head_bound fe x st -> env_insert st fe x v true = env_insert st fe x v false.
Proof.
  unfold head_bound, env_insert, search_entry. destruct (e_chain fe) as [|a c]; [contradiction|].
  intro H. cbn [firstn search_chain]. destruct (assoc x (frame_at st a)); [reflexivity|congruence].
Qed.
Lemma mono_inits e de bs : monotone (fun n => do_inits (eval prim n) e de bs).
Proof. intros n n' L. apply m_inits. now apply hev. Qed.
Lemma runs_grows_all e x st o : run e x st o -> match end_state (ending_of o) with Some st' => grows st st' | None => True end.
Proof. intros (n & E & _). specialize (eval_grows prim n e x st). rewrite E. auto. Qed.
Lemma inits_ok e de a c : e_chain de = a :: c -> forall ds st o, (a < length (s_frames st))%nat -> inits_run prim e de ds st o ->
  match o with
  | Ret _ st' => lim (fun n => do_inits (eval prim n) e de (map do_val ds)) st (Ret (concat (map step_of ds)) st') /\
                 grows st st' /\ forall d, In d ds -> head_bound de (do_var d) st'
  | _ => exists o', lim (fun n => do_inits (eval prim n) e de (map do_val ds)) st o' /\ stops o o'
  end.
Proof.
  intro E. induction ds as [|d ds IH]; intros st o L H.
  - unfold inits_run in H. cbn [each_run] in H. rewrite H. cbn. split; [exact (proj2 (lim_ret _ _ _) eq_refl)|]. split; [apply grows_refl|intros d []].
  - unfold inits_run in H. cbn [each_run] in H. apply (proj1 (andthen_assoc _ _ _ _ _)) in H.
    set (more := match do_step d with Some s => [s] | None => [] end).
    assert (LB : forall st o, lim (fun n => do_inits (eval prim n) e de (map do_val (d :: ds))) st o <->
      (v <~ run e (do_init d) ;; _ <~ effect (fun s => env_insert s de (do_var d) v true) ;;
       ss <~ lim (fun n => do_inits (eval prim n) e de (map do_val ds)) ;; returns (step_of d ++ ss)) st o).
    { intros st0 o0. cbn [map do_val do_inits].
      etransitivity; [apply lim_bind; [apply mono_eval|intro; apply mono_bind; [apply mono_const|intro; apply mono_bind; [apply mono_inits|intro; apply mono_const]]]|].
      revert st0 o0. change (?a == ?b) with (a == b). 
      refine (andthen_cong _ _ _ _ _ _); [reflexivity|]. intro v.
      rewrite lim_bind; [|apply mono_const|intro; apply mono_bind; [apply mono_inits|intro; apply mono_const]].
      apply andthen_cong; [apply lim_modify|]. intros _.
      rewrite lim_bind; [|apply mono_inits|intro; apply mono_const].
      apply andthen_cong; [reflexivity|]. intro ss. rewrite lim_ret.
      unfold step_of. destruct (do_step d); reflexivity. }
    destruct H as [(v & st1 & H1 & H2)|(o1 & H1 & H2)].
    + assert (G1 : grows st st1) by (eapply runs_grows; eauto).
      assert (U : unbound_frames de (do_var d) st1).
      { destruct H2 as [(? & ? & (U & _) & _)|(? & (U & _) & _)]; auto. }
      assert (H3 : inits_run prim e de ds (env_insert st1 de (do_var d) v false) o).
      { destruct H2 as [([] & s & (_ & K) & H2)|(o1 & (_ & K) & H2)].
        - injection K as ->. auto.
        - rewrite K in H2. inversion H2. }
      assert (L1 : (a < length (s_frames st1))%nat) by (destruct G1; lia).
      apply IH in H3; [|rewrite insert_len; auto].
      rewrite <- (insert_up_own st1 de (do_var d) v U) in H3.
      assert (HD : head_bound de (do_var d) (env_insert st1 de (do_var d) v true)).
      { rewrite insert_up_own by auto. eapply insert_head; eauto. }
      destruct o as [u st'| | | | | |].
      * destruct H3 as (K1 & K2 & K3). split; [|split].
        -- apply LB. left. exists v, st1. split; auto. left. exists tt. eexists. split; [reflexivity|]. left. eauto.
           eexists. eexists. split; [exact K1|reflexivity].
        -- eapply grows_trans; [exact G1|]. eapply grows_trans; [|exact K2]. rewrite insert_up_own by auto. apply insert_grows.
        -- intros d' [<- |I]; auto. eapply grows_head; eauto.
      * destruct H3 as (o' & K1 & K2). destruct (@stops_split _ (list (list Z * val)) _ _ _ K2) as (o3 & K3 & K4).
        exists o3. split; auto. apply LB. left. exists v, st1. split; auto. left. exists tt. eexists. split; [reflexivity|].
        right. exists o'. split; auto. inversion K2; subst; inversion K3; subst; constructor.
      * destruct H3 as (o' & K1 & K2). exists o'. split; auto. apply LB. left. exists v, st1. split; auto. left. exists tt. eexists. split; [reflexivity|].
        right. exists o'. split; auto. inversion K2; subst; constructor.
      * destruct H3 as (o' & K1 & K2). exists o'. split; auto. apply LB. left. exists v, st1. split; auto. left. exists tt. eexists. split; [reflexivity|].
        right. exists o'. split; auto. inversion K2; subst; constructor.
      * destruct H3 as (o' & K1 & K2). exists o'. split; auto. apply LB. left. exists v, st1. split; auto. left. exists tt. eexists. split; [reflexivity|].
        right. exists o'. split; auto. inversion K2; subst; constructor.
      * destruct H3 as (o' & K1 & K2). exists o'. split; auto. apply LB. left. exists v, st1. split; auto. left. exists tt. eexists. split; [reflexivity|].
        right. exists o'. split; auto. inversion K2; subst; constructor.
      * destruct H3 as (o' & K1 & K2). inversion K2.
    + inversion H2; subst; (eexists; split; [apply LB; right; eexists; split; [exact H1|constructor]|constructor]).
Qed.
Lemma mono_update de ss : monotone (fun n => update_do (eval prim n) de ss).
Proof. intros n n' L. apply m_update. now apply hev. Qed.
Lemma insert_all_ok fe : forall (ss : list (list Z * val)) vs st o, (forall x, In x (map fst ss) -> head_bound fe x st) ->
  binds_all fe (map fst ss) vs st o -> insert_all fe ss vs st = o /\ exists st', o = Ret tt st' /\ grows st st'.
Proof.
  induction ss as [|[x s] ss IH]; intros vs st o HB H.
  - cbn in H. rewrite H. split; [destruct vs; auto|]. exists st. split; auto. apply grows_refl.
  - destruct vs as [|v vs]; [cbn in H; rewrite H; split; [auto|]; exists st; split; [auto|apply grows_refl]|].
    cbn [map binds_all fst] in H. apply (proj1 (andthen_effect _ _ _ _)) in H.
    apply IH in H. 2: { intros y I. eapply grows_head; [apply insert_grows|]. apply HB. cbn. auto. }
    destruct H as (H & st' & -> & G). cbn [insert_all]. unfold ebind, insert_up, modify. rewrite insert_up_head by (apply HB; cbn; auto).
    split; [exact H|]. exists st'. split; auto. eapply grows_trans; [apply insert_grows|exact G].
Qed.
Lemma steps_ok fe ds st o : (forall d, In d ds -> head_bound fe (do_var d) st) ->
  steps_run prim fe ds st o -> lim (fun n => update_do (eval prim n) fe (concat (map step_of ds))) st o /\
  forall u st', o = Ret u st' -> grows st st'.
Proof.
  intros HB H. unfold steps_run in H. set (ss := concat (map step_of ds)) in *.
  assert (HS : forall x, In x (map fst ss) -> head_bound fe x st).
  { intros x I. apply in_map_iff in I. destruct I as ([y s] & <- & I). unfold ss in I. apply in_concat in I. destruct I as (l & I1 & I2).
    apply in_map_iff in I1. destruct I1 as (d & <- & I1). unfold step_of in I2. destruct (do_step d); [|destruct I2]. destruct I2 as [E|[]].
    injection E as <- <-. apply HB; auto. }
  assert (GA : forall es st vs st1, args_run prim fe es st (Ret vs st1) -> grows st st1).
  { induction es as [|x es IHe]; intros s vs s1 K; cbn [args_run] in K; [injection K as -> ->; apply grows_refl|].
    destruct K as [(v & s2 & K1 & K2)|(o1 & K1 & K2)]; [|inversion K2].
    destruct K2 as [(v2 & s3 & K2 & K3)|(o1 & K2 & K3)]; [|inversion K3]. injection K3 as -> ->.
    eapply grows_trans; [eapply runs_grows; eauto|eauto]. }
  assert (L : lim (fun n => update_do (eval prim n) fe ss) st o).
  { unfold update_do. apply lim_bind; [apply mono_args|intro; apply mono_const|]. revert H. apply andthen_imp.
    - intros o1 K. now apply lim_args.
    - intros vs st1 K H. exists O. apply insert_all_ok in H. 2: { intros x I. eapply grows_head; eauto. }
      destruct H as (H & st' & -> & _). split; [exact H|discriminate]. }
  split; auto. intros u st' ->. destruct H as [(vs & st1 & H1 & H2)|(o1 & _ & H2)]; [|inversion H2].
  apply insert_all_ok in H2. 2: { intros x I. eapply grows_head; eauto. }
  destruct H2 as (_ & st2 & E & G). injection E as _ <-. eapply grows_trans; eauto.
Qed.
Lemma mono_loop de t r b s : monotone (fun n => do_loop (eval prim n) n de t r b s).
Proof. intros n n' L. apply m_loop; auto. now apply hev. Qed.
Lemma eval_last_ok e : forall es x acc, lim (fun n => eval_last (eval prim n) e (x :: es) acc) == body_run prim e (x :: es).
Proof.
  induction es as [|y es IH]; intros x acc.
  - cbn [eval_last body_run]. rewrite lim_bind; [|apply mono_eval|intro; apply mono_const].
    intros st o. split.
    + intros [(v & s & H1 & H2)|(o1 & H1 & H2)].
      * apply (proj1 (lim_ret _ _ _)) in H2. rewrite H2. exact H1.
      * inversion H2; subst; exact H1.
    + intro H. destruct o; try (right; eexists; split; [exact H|constructor]).
      * left. eexists. eexists. split; [exact H|]. apply (proj2 (lim_ret _ _ _)). reflexivity.
      * destruct H as (n & _ & N). congruence.
  - change (lim (fun n => ebind (eval prim n e x) (fun v => eval_last (eval prim n) e (y :: es) v)) == (_ <~ run e x ;; body_run prim e (y :: es))).
    rewrite lim_bind; [|apply mono_eval|intros a n n' L; apply m_last; now apply hev].
    apply andthen_cong; [reflexivity|]. intro v. apply IH.
Qed.
(* the loop, unfolded once *)
Lemma loop_unfold de t res body ss st o :
  lim (fun n => do_loop (eval prim n) n de t (mklist res) body ss) st o <->
  (v <~ run de t ;;
   match v with
   | VBool true => result_run prim de res
   | VBool false => _ <~ args_run prim de body ;; _ <~ lim (fun n => update_do (eval prim n) de ss) ;;
                    lim (fun n => do_loop (eval prim n) n de t (mklist res) body ss)
   | _ => raises
   end) st o.
Proof.
  (* fuel n of the loop may be smaller than that of the evaluations *)
  assert (E1 : lim (fun n => do_loop (eval prim n) n de t (mklist res) body ss) st o <->
               lim (fun n => do_loop (eval prim n) (S n) de t (mklist res) body ss) st o).
  { split; intros (n & E & N).
    - destruct n as [|n]; [cbn in E; unfold fuel in E; congruence|]. exists (S n).
      destruct (m_loop (eval prim (S n)) (eval prim (S n)) (fun e x => mle_refl _) (S n) (S (S n)) de t (mklist res) body ss ltac:(lia) st) as [F|F]; [congruence|].
      rewrite <- F. auto.
    - exists (S n). destruct (m_loop (eval prim n) (eval prim (S n)) (hev prim n (S n) ltac:(lia)) (S n) (S n) de t (mklist res) body ss ltac:(lia) st) as [F|F]; [congruence|].
      rewrite <- F. auto. }
  rewrite E1. cbn [do_loop].
  etransitivity; [apply lim_bind; [apply mono_eval|]|].
  - intro v. destruct v; try apply mono_const. destruct b.
    + destruct res; cbn [mklist cast_list]; [apply mono_const|]. intros n n' L. apply m_last. now apply hev.
    + apply mono_bind; [apply mono_args|]. intro. apply mono_bind; [apply mono_update|]. intro. apply mono_loop.
  - revert st o E1. intros st o _. refine (andthen_cong _ _ _ _ _ _ st o); [reflexivity|]. intro v.
    destruct v; try apply lim_err. destruct b.
    + destruct res as [|r res]; [cbn [mklist cast_list]; apply lim_ret|]. cbn [mklist cast_list result_run]. apply eval_last_ok.
    + rewrite lim_bind; [|apply mono_args|intro; apply mono_bind; [apply mono_update|intro; apply mono_loop]].
      apply andthen_cong; [apply lim_args|]. intros _.
      rewrite lim_bind; [|apply mono_update|intro; apply mono_loop].
      apply andthen_cong; reflexivity.
Qed.
Lemma args_grows e : forall es st vs st1, args_run prim e es st (Ret vs st1) -> grows st st1.
Proof.
  induction es as [|x es IHe]; intros s vs s1 K; cbn [args_run] in K; [injection K as -> ->; apply grows_refl|].
  destruct K as [(v & s2 & K1 & K2)|(o1 & K1 & K2)]; [|inversion K2].
  destruct K2 as [(v2 & s3 & K2 & K3)|(o1 & K2 & K3)]; [|inversion K3]. injection K3 as -> ->.
  eapply grows_trans; [eapply runs_grows; eauto|eauto].
Qed.
Lemma loop_ok fe t res body ds : forall k st o, (forall d, In d ds -> head_bound fe (do_var d) st) ->
  loop_run prim k fe ds t res body st o ->
  lim (fun n => do_loop (eval prim n) n fe t (mklist res) body (concat (map step_of ds))) st o.
Proof.
  induction k as [|k IH]; intros st o HB H; [contradiction|]. cbn [loop_run] in H.
  apply loop_unfold. revert H. apply andthen_imp; auto. intros v st1 R H.
  assert (G1 : grows st st1) by (eapply runs_grows; eauto).
  destruct v; auto. destruct b; auto. revert H. apply andthen_imp; auto. intros vs st2 R2 H.
  assert (G2 : grows st1 st2) by (eapply args_grows; eauto).
  assert (HB2 : forall d, In d ds -> head_bound fe (do_var d) st2).
  { intros d I. eapply grows_head; [exact G2|]. eapply grows_head; [exact G1|]. auto. }
  revert H. apply andthen_imp.
  - intros o1 K. apply steps_ok in K; tauto.
  - intros u st3 R3 H. apply IH; auto. apply steps_ok in R3; auto. destruct R3 as [_ G3]. intros d I. eapply grows_head; [eapply G3; reflexivity|]. auto.
Qed.
Lemma runs_do e ds t res body st o : plain e "do" st -> do_run prim e ds t res body st o ->
  run e (form_ "do" (mklist (map do_val ds) :: VList (t :: res) false :: body)) st o.
Proof.
  intros P H. rewrite (runs_special prim e "do" FDo _ st o P eq_refl).
  assert (E : lim (fun n => special prim (eval prim n) n e FDo (mklist (map do_val ds) :: VList (t :: res) false :: body)) ==
    (de <~ new_frame e ;; ss <~ lim (fun n => do_inits (eval prim n) e de (map do_val ds)) ;;
     lim (fun n => do_loop (eval prim n) n de t (mklist res) body ss))).
  { transitivity (lim (fun n => ebind (alloc_frame e) (fun de => ebind (do_inits (eval prim n) e de (map do_val ds))
      (fun steps => do_loop (eval prim n) n de t (mklist res) body steps)))).
    - apply lim_ext. intros n s. cbn [special do_do]. destruct ds as [|d ds], res as [|r [|r2 res]]; reflexivity.
    - rewrite lim_bind; [|apply mono_const|intro; apply mono_bind; [apply mono_inits|intro; apply mono_loop]].
      apply andthen_cong; [apply lim_alloc|]. intro de.
      rewrite lim_bind; [|apply mono_inits|intro; apply mono_loop]. reflexivity. }
  apply E. unfold do_run in H. apply andthen_new in H. apply andthen_new. set (fe := mkEnv _ _) in *. set (st1 := snd (make_env st e)) in *.
  assert (L : (length (s_frames st) < length (s_frames st1))%nat) by (unfold st1; cbn; rewrite app_length; cbn; lia).
  destruct H as [(u & st2 & H1 & (k & H2))|(o1 & H1 & H2)];
    apply (inits_ok e fe _ _ (eq_refl (e_chain fe)) ds st1 _ L) in H1.
  - destruct H1 as (K1 & K2 & K3). left. eexists. eexists. split; [exact K1|]. eapply loop_ok; eauto.
  - right. inversion H2; subst; destruct H1 as (o' & K1 & K2); exists o'; split; auto; inversion K2; subst; constructor.
Qed.
End Forms.
