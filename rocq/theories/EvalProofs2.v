(** Rules for the control and binding forms. *)
From Coq Require Import String Lia Setoid Morphisms.
From Verif Require Import Base ParseModel PrintModel EnvModel EnvSpec EnvProofs EvalModel EvalMono EvalInv EvalInv2 EvalSpec EvalProofs.
Local Open Scope string_scope.
Local Open Scope list_scope.

Section Forms.
Variable prim : list Z -> list val -> pres.
Notation run := (runs prim).

Lemma lim_if_bool {A} (b : bool) (M1 M2 : nat -> EM A) : lim (fun n => if b then M1 n else M2 n) == (if b then lim M1 else lim M2).
Proof. destruct b; reflexivity. Qed.
Lemma mono_if {A} (b : bool) (M1 M2 : nat -> EM A) : monotone M1 -> monotone M2 -> monotone (fun n => if b then M1 n else M2 n).
Proof. destruct b; auto. Qed.
Lemma mono_and e es : monotone (fun n => do_and (eval prim n) e es).
Proof. intros n n' L. apply m_and. now apply hev. Qed.
Lemma mono_or e es : monotone (fun n => do_or (eval prim n) e es).
Proof. intros n n' L. apply m_or. now apply hev. Qed.
Lemma truthy_false v : truthy v = false -> v = VBool false.
Proof. destruct v; cbn; try discriminate. destruct b; [discriminate|auto]. Qed.

Lemma lim_and e es : lim (fun n => do_and (eval prim n) e es) == and_run prim e es.
Proof.
  induction es as [|x [|y r] IH]; [apply lim_ret|reflexivity|].
  change (lim (fun n => ebind (eval prim n e x) (fun v => if truthy v then do_and (eval prim n) e (y :: r) else ret (VBool false))) ==
          (v <~ run e x ;; if truthy v then and_run prim e (y :: r) else returns v)).
  rewrite lim_bind; [|apply mono_eval|intro; apply mono_if; [apply mono_and|apply mono_const]].
  apply andthen_cong; [reflexivity|]. intro v. destruct (truthy v) eqn:T; [apply IH|].
  rewrite (truthy_false _ T). apply lim_ret.
Qed.
Lemma lim_or e es : lim (fun n => do_or (eval prim n) e es) == or_run prim e es.
Proof.
  induction es as [|x [|y r] IH]; [apply lim_ret|reflexivity|].
  change (lim (fun n => ebind (eval prim n e x) (fun v => if truthy v then ret v else do_or (eval prim n) e (y :: r))) ==
          (v <~ run e x ;; if truthy v then returns v else or_run prim e (y :: r))).
  rewrite lim_bind; [|apply mono_eval|intro; apply mono_if; [apply mono_const|apply mono_or]].
  apply andthen_cong; [reflexivity|]. intro v. destruct (truthy v) eqn:T; [apply lim_ret|apply IH].
Qed.
Lemma lim_if e t c a : lim (fun n => do_if (eval prim n) e [t; c; a]) == (v <~ run e t ;; if truthy v then run e c else run e a).
Proof.
  cbn [do_if]. rewrite lim_bind; [|apply mono_eval|intro; apply mono_if; apply mono_eval].
  apply andthen_cong; [reflexivity|]. intro v. destruct (truthy v); reflexivity.
Qed.
Lemma lim_if1 e t c : lim (fun n => do_if (eval prim n) e [t; c]) == (v <~ run e t ;; if truthy v then run e c else returns VNone).
Proof.
  cbn [do_if]. rewrite lim_bind; [|apply mono_eval|intro; apply mono_if; [apply mono_eval|apply mono_const]].
  apply andthen_cong; [reflexivity|]. intro v. destruct (truthy v); [reflexivity|apply lim_ret].
Qed.

(** ** lambda *)
Lemma lambda_value e xs rest b bs : do_lambda e (params xs rest) (b :: bs) = ret (closure xs rest (b :: bs) e).
Proof. unfold do_lambda, params, closure. destruct rest as [r|], xs; reflexivity. Qed.
Lemma runs_lambda e xs rest b bs st o : plain e "lambda" st ->
  (run e (form_ "lambda" (params xs rest :: b :: bs)) st o <-> returns (closure xs rest (b :: bs) e) st o).
Proof.
  intro P. rewrite (runs_special prim e "lambda" FLambda _ st o P eq_refl). cbn [special]. rewrite lambda_value. apply lim_ret.
Qed.

(** ** let *)
Lemma split_pairs l : split_bindings (map (fun b : list Z * val => VList [VSym (fst b); snd b] false) l) = Some (map VSym (map fst l), map snd l).
Proof. induction l as [|[x i] l IH]; [reflexivity|]. cbn [map split_bindings]. rewrite IH. reflexivity. Qed.
Lemma expand_let_eq l b bs : expand_let (bindings l :: b :: bs) = Some (Some (VList (form_ "lambda" (params (map fst l) None :: b :: bs) :: map snd l) false)).
Proof.
  destruct l as [|p l]; [reflexivity|]. unfold bindings, mklist. cbn [map]. unfold expand_let.
  change (VList [VSym (fst p); snd p] false :: map (fun b0 => VList [VSym (fst b0); snd b0] false) l)
    with (map (fun b : list Z * val => VList [VSym (fst b); snd b] false) (p :: l)).
  rewrite split_pairs. reflexivity.
Qed.
(* ((lambda (x ...) body ...) init ...) *)
Lemma runs_lambda_call e xs b bs args st o : plain e "lambda" st ->
  (run e (VList (form_ "lambda" (params xs None :: b :: bs) :: args) false) st o <-> call_run prim e xs None (b :: bs) e args st o).
Proof.
  intro P. unfold form_ at 1. rewrite runs_operator_expr.
  assert (E : forall (k : val -> Beh val), andthen (run e (form_ "lambda" (params xs None :: b :: bs))) k st o <-> k (closure xs None (b :: bs) e) st o).
  { intro k. unfold andthen. split.
    - intros [(a & s & H1 & H2)|(o1 & H1 & H2)]; apply (runs_lambda _ _ _ _ _ _ _ P) in H1.
      + injection H1 as -> ->. auto.
      + rewrite H1 in H2. inversion H2.
    - intro H. left. eexists. eexists. split; [apply (runs_lambda _ _ _ _ _ _ _ P); reflexivity|auto]. }
  fold (form_ "lambda" (params xs None :: b :: bs)). rewrite E. apply (runs_call prim e xs None (b :: bs) e args). auto.
Qed.
Lemma runs_let e l b bs st o : plain e "let" st -> plain e "lambda" st ->
  (run e (form_ "let" (bindings l :: b :: bs)) st o <-> let_run prim e l (b :: bs) st o).
Proof.
  intros P1 P2. rewrite (runs_special prim e "let" FLet _ st o P1 eq_refl). cbn [special]. rewrite expand_let_eq. cbn [run_expansion].
  change (lim (fun n => eval prim n e ?x)) with (run e x). apply runs_lambda_call; auto.
Qed.

(** ** let* *)
Lemma andthen_imp {A B} (m m' : Beh A) (k k' : A -> Beh B) st o : (forall o1, m st o1 -> m' st o1) ->
  (forall a st1, m st (Ret a st1) -> k a st1 o -> k' a st1 o) -> andthen m k st o -> andthen m' k' st o.
Proof. intros H1 H2 [(a & s & H3 & H4)|(o1 & H3 & H4)]; [left|right]; eauto 6. Qed.
Lemma expand_letstar_eq p q l b bs : expand_letstar (bindings (p :: q :: l) :: b :: bs) =
  Some (Some (form_ "let" [bindings [p]; form_ "let*" (bindings (q :: l) :: b :: bs)])).
Proof. destruct l; reflexivity. Qed.
Lemma runs_letstar : forall l e b bs st o, letstar_run prim e l (b :: bs) st o -> run e (form_ "let*" (bindings l :: b :: bs)) st o.
Proof.
  induction l as [|[x i] [|q l] IH]; intros e b bs st o ((P1 & P2 & P3) & H).
  - rewrite (runs_special prim e "let*" FLetStar _ st o P1 eq_refl). cbn [special expand_letstar bindings map mklist].
    cbn [run_expansion]. change (lim (fun n => eval prim n e ?x)) with (run e x). now apply (runs_lambda_call e [] b bs [] st o P3).
  - rewrite (runs_special prim e "let*" FLetStar _ st o P1 eq_refl). cbn [special].
    change (expand_letstar (bindings [(x, i)] :: b :: bs)) with (Some (Some (form_ "let" (bindings [(x, i)] :: b :: bs)))).
    cbn [run_expansion]. change (lim (fun n => eval prim n e ?x)) with (run e x). now apply runs_let.
  - rewrite (runs_special prim e "let*" FLetStar _ st o P1 eq_refl). cbn [special]. rewrite expand_letstar_eq.
    cbn [run_expansion]. change (lim (fun n => eval prim n e ?x)) with (run e x). apply runs_let; auto.
    unfold let_run, call_run. cbn [map fst snd bind_run body_run]. revert H. apply andthen_imp; [auto|].
    intros fe st1 _ H. apply andthen_assoc. revert H. apply andthen_imp; [auto|]. intros v st2 _ H.
    apply andthen_assoc. revert H. apply andthen_imp; [auto|]. intros [] st3 _ H.
    apply andthen_returns. auto.
Qed.

(** ** letrec *)
Lemma runs_const e v st o : match v with VSym _ | VList (_ :: _) _ => False | _ => True end -> (run e v st o <-> returns v st o).
Proof.
  intro H. rewrite runs_step.
  transitivity (lim (fun _ => ret v) st o); [|apply lim_ret]. 
  destruct v; try contradiction; try reflexivity. destruct ns; [reflexivity|contradiction].
Qed.
Definition set_of (p : list Z * val) : val := form_ "set!" [VSym (fst p); snd p].
Lemma expand_letrec_eq p l b bs : expand_letrec (bindings (p :: l) :: b :: bs) =
  Some (Some (form_ "let" (bindings (map (fun q => (fst q, VBool false)) (p :: l)) :: map set_of (p :: l) ++ b :: bs))).
Proof.
  unfold bindings, mklist. cbn [map]. unfold expand_letrec.
  change (VList [VSym (fst p); snd p] false :: map (fun b0 => VList [VSym (fst b0); snd b0] false) l)
    with (map (fun b : list Z * val => VList [VSym (fst b); snd b] false) (p :: l)).
  rewrite split_pairs. unfold form_.
  assert (A1 : map (fun x => VList [x; VBool false] false) (map VSym (map fst (p :: l))) =
               map (fun b0 : list Z * val => VList [VSym (fst b0); snd b0] false) (map (fun q => (fst q, VBool false)) (p :: l)))
    by (rewrite !map_map; apply map_ext; auto).
  assert (A2 : forall m : list (list Z * val), map (fun p0 => VList [sym "set!"; fst p0; snd p0] false) (combine (map VSym (map fst m)) (map snd m)) = map set_of m).
  { induction m as [|r m IH]; [reflexivity|]. cbn [map combine]. f_equal. apply IH. }
  rewrite A1, A2. reflexivity.
Qed.
Definition head_bound (fe : env) (x : list Z) (st : state) : Prop :=
  match e_chain fe with a :: _ => assoc x (frame_at st a) <> None | [] => False end.
Lemma grows_head fe x st st' : grows st st' -> head_bound fe x st -> head_bound fe x st'.
Proof.
  unfold head_bound. intros G. destruct (e_chain fe) as [|a c]; auto.
  intro H. apply (g_bound _ _ G (InFrame a) x). exact H.
Qed.
Lemma set_head fe x v st : head_bound fe x st -> do_set st fe x v = env_insert st fe x v false.
Proof.
  unfold head_bound, do_set, env_insert, search_entry. destruct (e_chain fe) as [|a c]; [contradiction|].
  intro H. cbn [search_chain firstn]. destruct (assoc x (frame_at st a)); [auto|congruence].
Qed.
Lemma runs_grows e x st st' v : run e x st (Ret v st') -> grows st st'.
Proof. intros (n & E & _). specialize (eval_grows prim n e x st). rewrite E. auto. Qed.
Lemma runs_set e x i st o : head_bound e x st -> plain e "set!" st ->
  (run e (form_ "set!" [VSym x; i]) st o <-> (v <~ run e i ;; _ <~ binds e x v ;; returns VNone) st o).
Proof.
  intros HB P. rewrite (runs_special prim e "set!" FSet _ st o P eq_refl). cbn [special do_set_form].
  etransitivity; [apply (lim_bind (fun n => eval prim n e i) (fun n v => ebind (modify (fun st => do_set st e x v)) (fun _ => ret VNone)));
    [apply mono_eval|intro; apply mono_const]|].
  assert (K : forall v st1, run e i st (Ret v st1) ->
    (lim (fun _ => ebind (modify (fun st => do_set st e x v)) (fun _ => ret VNone)) st1 o <-> (_ <~ binds e x v ;; returns VNone) st1 o)).
  { intros v st1 H. etransitivity; [apply lim_bind; [apply mono_const|intro; apply mono_const]|].
    etransitivity; [apply (andthen_cong _ _ _ _ (lim_modify _) (fun _ => lim_ret VNone))|]. unfold binds. rewrite !andthen_effect.
    rewrite set_head; [reflexivity|]. eapply grows_head; eauto using runs_grows. }
  split; apply andthen_imp; auto; intros v st1 H; apply K; auto.
Qed.
Lemma bind_falses e fe xs : bind_run prim e fe xs None (map (fun _ => VBool false) xs) == each_run (fun x => binds fe x (VBool false)) xs.
Proof.
  induction xs as [|x xs IH]; [reflexivity|]. cbn [bind_run map each_run].
  transitivity (andthen (@returns val (VBool false)) (fun v => _ <~ binds fe x v ;; bind_run prim e fe xs None (map (fun _ => VBool false) xs))).
  - apply andthen_cong; [|reflexivity]. intros st o. now apply runs_const.
  - rewrite andthen_returns. apply andthen_cong; [reflexivity|]. intros []. apply IH.
Qed.
Lemma insert_head st fe x v a c : e_chain fe = a :: c -> (a < length (s_frames st))%nat ->
  head_bound fe x (env_insert st fe x v false).
Proof.
  intros E L. unfold head_bound, env_insert, search_entry. rewrite E. cbn [firstn search_chain].
  destruct (assoc x (frame_at st a)) eqn:F; unfold frame_at, set_frame; cbn [s_frames]; rewrite nth_upd by auto; rewrite Nat.eqb_refl.
  - rewrite assoc_put, beq_refl. discriminate.
  - cbn [assoc]. rewrite beq_refl. discriminate.
Qed.
Lemma insert_len st fe x v b : length (s_frames (env_insert st fe x v b)) = length (s_frames st).
Proof. unfold env_insert. destruct (search_entry _ _ _ _) as [[]|]; [|destruct (e_chain fe)]; auto; unfold set_frame; cbn; apply upd_length. Qed.
Lemma insert_grows st fe x v : grows st (env_insert st fe x v false).
Proof.
  unfold env_insert. destruct (search_entry _ _ _ _) as [[a w]|].
  - apply grows_frame. intro y. apply assoc_put_some.
  - destruct (e_chain fe) as [|a c]; [apply grows_refl|]. apply grows_frame. intros y H. cbn. destruct (beq x y); [discriminate|auto].
Qed.
Lemma each_binds fe a c v : e_chain fe = a :: c -> forall xs st o, (a < length (s_frames st))%nat ->
  each_run (fun x => binds fe x v) xs st o ->
  exists st', o = Ret tt st' /\ grows st st' /\ forall x, In x xs -> head_bound fe x st'.
Proof.
  intro E. induction xs as [|x xs IH]; intros st o L H; cbn [each_run] in H.
  - exists st. split; [auto|]. split; [apply grows_refl|]. intros x [].
  - apply andthen_effect in H. apply IH in H; [|rewrite insert_len; auto]. destruct H as (st' & -> & G & H).
    exists st'. split; auto. split.
    + eapply grows_trans; [apply insert_grows|exact G].
    + intros y [<- |I]; [|auto]. eapply grows_head; [exact G|]. eapply insert_head; eauto.
Qed.
Lemma body_cons e x y r : body_run prim e (x :: y :: r) = (_ <~ run e x ;; body_run prim e (y :: r)). Proof. reflexivity. Qed.
Lemma sets_body fe b bs : forall l st o, (forall x, In x (map fst l) -> head_bound fe x st) ->
  (_ <~ each_run (fun p => given (plain fe "set!") (v <~ run fe (snd p) ;; binds fe (fst p) v)) l ;; body_run prim fe (b :: bs)) st o ->
  body_run prim fe (map set_of l ++ b :: bs) st o.
Proof.
  induction l as [|[x i] l IH]; intros st o HB H.
  - exact (proj1 (andthen_returns _ _ _ _) H).
  - cbn [each_run] in H. apply andthen_assoc in H. cbn [map app].
    assert (NE : exists y r, map set_of l ++ b :: bs = y :: r) by (destruct l; cbn; eauto).
    destruct NE as (y & r & NE). rewrite NE, body_cons, <- NE. cbn [fst snd] in *.
    assert (P : plain fe "set!" st). { destruct H as [(? & ? & (P & _) & _)|(? & (P & _) & _)]; auto. }
    assert (HX : head_bound fe x st) by (apply HB; cbn; auto).
    assert (S1 : forall o, run fe (set_of (x, i)) st o <-> _) by (intro o1; apply (runs_set fe x i st o1 HX P)).
    destruct H as [([] & s1 & (_ & H1) & H2)|(o1 & (_ & H1) & H2)].
    + left. exists VNone, s1.
      assert (R : run fe (set_of (x, i)) st (Ret VNone s1)).
      { apply S1. destruct H1 as [(v & s2 & H3 & H4)|(o2 & H3 & H4)]; [|inversion H4].
        left. exists v, s2. split; auto. left. exists tt, s1. split; [auto|reflexivity]. }
      split; auto. apply IH; auto. intros z I. eapply grows_head; [eapply runs_grows; exact R|]. apply HB. cbn. auto.
    + right. destruct H1 as [(v & s2 & H3 & H4)|(o2 & H3 & H4)].
      * rewrite H4 in H2. inversion H2.
      * destruct (@stops_split _ val _ _ _ (stops_trans _ _ _ H4 H2)) as (o3 & H5 & H6). exists o3. split; auto. apply S1. right. eauto.
Qed.
Lemma runs_letrec l e b bs st o : plain e "letrec" st -> plain e "let" st -> plain e "lambda" st ->
  letrec_run prim e l (b :: bs) st o -> run e (form_ "letrec" (bindings l :: b :: bs)) st o.
Proof.
  intros P1 P2 P3 H. rewrite (runs_special prim e "letrec" FLetrec _ st o P1 eq_refl). cbn [special].
  destruct l as [|p l].
  - cbn [expand_letrec bindings map mklist run_expansion]. change (lim (fun n => eval prim n e ?x)) with (run e x).
    apply (runs_lambda_call e [] b bs [] st o P3). unfold call_run, letrec_run in *. revert H. apply andthen_imp; auto.
    intros fe st1 _ H. cbn [map each_run bind_run] in *.
    apply (proj1 (andthen_returns _ _ _ _)) in H. apply (proj1 (andthen_returns _ _ _ _)) in H.
    exact (proj2 (andthen_returns _ _ _ _) H).
  - rewrite expand_letrec_eq. cbn [run_expansion]. change (lim (fun n => eval prim n e ?x)) with (run e x).
    assert (NE : exists y r, map set_of (p :: l) ++ b :: bs = y :: r) by (cbn; eauto). destruct NE as (y & r & NE).
    rewrite NE. apply runs_let; auto. rewrite <- NE. unfold let_run, call_run, letrec_run in *.
    apply andthen_new in H. apply andthen_new. set (fe := mkEnv _ _) in *. set (st1 := snd (make_env st e)) in *.
    assert (A1 : map fst (map (fun q : list Z * val => (fst q, VBool false)) (p :: l)) = map fst (p :: l)) by (rewrite map_map; apply map_ext; auto).
    assert (A2 : map snd (map (fun q : list Z * val => (fst q, VBool false)) (p :: l)) = map (fun _ => VBool false) (map fst (p :: l))) by (rewrite !map_map; apply map_ext; auto).
    rewrite A1, A2. refine (proj2 (andthen_cong _ _ _ _ (bind_falses e fe (map fst (p :: l))) (fun _ => ltac:(reflexivity)) st1 o) _).
    revert H. apply andthen_imp; auto. intros [] st2 E H.
    eapply each_binds in E; [|reflexivity|]. 2: { unfold st1. cbn. rewrite app_length. cbn. lia. }
    destruct E as (st3 & E & G & HB). injection E as <-. apply sets_body; auto.
Qed.

(** ** named let *)
Lemma temps_eq : forall is k, temps (Z.of_nat k) is = map VSym (map temp (seq k (length is))).
Proof.
  induction is as [|i is IH]; intro k; [reflexivity|]. cbn [temps seq length map]. unfold temp at 1. f_equal.
  replace (Z.of_nat k + 1)%Z with (Z.of_nat (S k)) by lia. apply IH.
Qed.
Lemma combine_map ts (l : list (list Z * val)) : length ts = length l ->
  map (fun p => VList [fst p; snd p] false) (combine (map VSym ts) (map snd l)) =
  map (fun b : list Z * val => VList [VSym (fst b); snd b] false) (combine ts (map snd l)).
Proof. revert l. induction ts as [|t ts IH]; intros [|x l] E; try discriminate; [reflexivity|]. cbn [map combine]. f_equal. apply IH. now injection E. Qed.
Lemma expand_named f p l b : expand_let [VSym f; bindings (p :: l); b] =
  Some (Some (form_ "let" [bindings (combine (map temp (seq 0 (length (p :: l)))) (map snd (p :: l)));
    form_ "letrec" [bindings [(f, form_ "lambda" [params (map fst (p :: l)) None; b])];
      VList (VSym f :: map VSym (map temp (seq 0 (length (p :: l))))) false]])).
Proof.
  unfold bindings at 1, mklist. cbn [map]. unfold expand_let.
  change (VList [VSym (fst p); snd p] false :: map (fun b0 => VList [VSym (fst b0); snd b0] false) l)
    with (map (fun b : list Z * val => VList [VSym (fst b); snd b] false) (p :: l)).
  rewrite split_pairs. change 0%Z with (Z.of_nat 0). rewrite temps_eq. rewrite map_length. rewrite combine_map by (rewrite map_length, seq_length; auto).
  reflexivity.
Qed.
Lemma combine_fst {A B} (l : list A) (m : list B) : length l = length m -> map fst (combine l m) = l.
Proof. revert m. induction l as [|x l IH]; intros [|y m] E; try discriminate; [reflexivity|]. cbn. f_equal. apply IH. now injection E. Qed.
Lemma combine_snd {A B} (l : list A) (m : list B) : length l = length m -> map snd (combine l m) = m.
Proof. revert m. induction l as [|x l IH]; intros [|y m] E; try discriminate; [reflexivity|]. cbn. f_equal. apply IH. now injection E. Qed.
Lemma insert_lookup st fe x v a c : e_chain fe = a :: c -> (a < length (s_frames st))%nat ->
  env_exist (env_insert st fe x v false) fe x = Some v.
Proof.
  intros E L. unfold env_exist, env_insert, search_entry.
  rewrite E. cbn [firstn search_chain].
  destruct (assoc x (frame_at st a)) eqn:F; unfold frame_at, set_frame; cbn [s_frames]; rewrite nth_upd by auto; rewrite Nat.eqb_refl.
  - rewrite assoc_put, beq_refl. reflexivity.
  - cbn [assoc]. rewrite beq_refl. reflexivity.
Qed.
Lemma runs_named e f p l b st o : form_of f = None -> plain e "let" st -> plain e "lambda" st ->
  named_run prim e f (p :: l) b st o -> run e (form_ "let" [VSym f; bindings (p :: l); b]) st o.
Proof.
  intros F P1 P2 H. rewrite (runs_special prim e "let" FLet _ st o P1 eq_refl). cbn [special].
  rewrite expand_named. cbn [run_expansion]. change (lim (fun n => eval prim n e ?x)) with (run e x).
  apply runs_let; auto. unfold let_run. set (ts := map temp (seq 0 (length (p :: l)))) in *.
  assert (LT : length ts = length (map snd (p :: l))) by (unfold ts; now rewrite !map_length, seq_length).
  rewrite combine_fst, combine_snd by auto.
  unfold named_run in H. fold ts in H. unfold call_run at 1.
  revert H. apply andthen_imp; auto. intros te st1 _. apply andthen_imp; auto. intros [] st2 _ ((Q1 & Q2 & Q3) & H).
  cbn [body_run].
  apply (runs_letrec [(f, form_ "lambda" [params (map fst (p :: l)) None; b])] te _ [] st2 o Q1 Q2 Q3).
  unfold letrec_run. apply andthen_new in H. apply andthen_new. set (fe := mkEnv _ _) in *. set (st3 := snd (make_env st2 te)) in *.
  cbn [map each_run fst snd]. apply (proj2 (andthen_assoc _ _ _ _ _)). apply (proj1 (andthen_effect _ _ _ _)) in H.
  apply (proj2 (andthen_effect _ _ _ _)). apply (proj2 (andthen_returns _ _ _ _)).
  destruct H as ((R1 & R2) & H). apply (proj2 (andthen_assoc _ _ _ _ _)). set (st4 := env_insert st3 fe f (VBool false) false) in *.
  apply (proj1 (andthen_effect _ _ _ _)) in H.
  set (st5 := env_insert st4 fe f (closure (map fst (p :: l)) None [b] fe) false) in *.
  left. exists tt, st5. split.
  { split; auto. left. exists (closure (map fst (p :: l)) None [b] fe), st4. split; [|reflexivity].
    apply (runs_lambda fe (map fst (p :: l)) None b [] st4); auto. reflexivity. }
  apply (proj2 (andthen_returns _ _ _ _)). cbn [body_run].
  assert (X : env_exist st5 fe f = Some (closure (map fst (p :: l)) None [b] fe)).
  { apply insert_lookup with (a := length (s_frames st2)) (c := e_chain te); [reflexivity|].
    unfold st4. rewrite insert_len. unfold st3. cbn. rewrite app_length. cbn. lia. }
  rewrite (runs_operator prim fe f (map VSym ts) false (closure (map fst (p :: l)) None [b] fe) st5 o); auto.
  - replace (match map VSym ts with [] => false | _ :: _ => false end) with false by (destruct ts; auto).
    apply (runs_call prim fe (map fst (p :: l)) None [b] fe (map VSym ts) false); auto.
  - left. unfold head_value. now rewrite X.
Qed.
Lemma runs_named0 e f b st o : form_of f = None -> plain e "let" st -> plain e "letrec" st -> plain e "lambda" st ->
  (fe <~ new_frame e ;; _ <~ binds fe f (VBool false) ;;
   given (fun st => plain fe "set!" st /\ plain fe "lambda" st) (_ <~ binds fe f (closure [] None [b] fe) ;; call_run prim fe [] None [b] fe [])) st o ->
  run e (form_ "let" [VSym f; VNil; b]) st o.
Proof.
  intros F P0 P1 P2 H. rewrite (runs_special prim e "let" FLet _ st o P0 eq_refl). cbn [special expand_let run_expansion].
  change (lim (fun n => eval prim n e ?x)) with (run e x).
  apply (runs_letrec [(f, form_ "lambda" [params [] None; b])] e (VList [VSym f] false) [] st o P1 P0 P2).
  unfold letrec_run. apply andthen_new in H. apply andthen_new. set (fe := mkEnv _ _) in *. set (st3 := snd (make_env st e)) in *.
  cbn [map each_run fst snd]. apply (proj2 (andthen_assoc _ _ _ _ _)). apply (proj1 (andthen_effect _ _ _ _)) in H.
  apply (proj2 (andthen_effect _ _ _ _)). apply (proj2 (andthen_returns _ _ _ _)).
  destruct H as ((R1 & R2) & H). apply (proj2 (andthen_assoc _ _ _ _ _)). set (st4 := env_insert st3 fe f (VBool false) false) in *.
  apply (proj1 (andthen_effect _ _ _ _)) in H.
  set (st5 := env_insert st4 fe f (closure [] None [b] fe) false) in *.
  left. exists tt, st5. split.
  { split; auto. left. exists (closure [] None [b] fe), st4. split; [|reflexivity].
    apply (runs_lambda fe [] None b [] st4); auto. reflexivity. }
  apply (proj2 (andthen_returns _ _ _ _)). cbn [body_run].
  assert (X : env_exist st5 fe f = Some (closure [] None [b] fe)).
  { apply insert_lookup with (a := length (s_frames st)) (c := e_chain e); [reflexivity|].
    unfold st4. rewrite insert_len. unfold st3. cbn. rewrite app_length. cbn. lia. }
  rewrite (runs_operator prim fe f [] false (closure [] None [b] fe) st5 o); auto.
  - apply (runs_call prim fe [] None [b] fe [] false); auto.
  - left. unfold head_value. now rewrite X.
Qed.
End Forms.
