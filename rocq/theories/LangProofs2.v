(** Proofs for C212: the evaluator follows the rules. *)
From Coq Require Import String Lia.
From Verif Require Import Base NumModel NumSpec NumProperties ParseModel ParseSpec PrintModel ParseProperties EnvModel EvalModel EvalMono
  ApiModel LangSpec LangProofs.
From Verif Require EnvProofs.
Local Open Scope string_scope.
Local Open Scope Z_scope.
Local Open Scope list_scope.

Lemma emit_nil st : emit [] st = st.
Proof. destruct st as [a b c d [? ? ? ? ? ? ? ? ? ?]]. unfold emit, on_dyn, set_dyn. cbn. now rewrite app_nil_r. Qed.
Lemma err_bind {A B} (m : EM A) (f : A -> EM B) st st' : m st = err st' -> ebind m f st = err st'.
Proof. unfold ebind. intros ->. unfold err, throw. destruct (find_handler _ _ _); reflexivity. Qed.
Lemma ret_bind {A B} (m : EM A) (f : A -> EM B) st v st' : m st = Ret v st' -> ebind m f st = f v st'.
Proof. unfold ebind. now intros ->. Qed.

Section Sim.
Variable prim : list Z -> list val -> pres.
Variable P : list fn.
Variable free : list Z -> Prop.
Hypothesis HN : numeric prim.
Hypothesis WP : Forall wf_fn P.
Hypothesis ND : NoDup (map f_name P).
Notation eval := (eval prim).
Notation step := (step prim).

Record base (st : state) : Prop := {
  b_cur : s_cur st = root;
  b_frames : s_frames st <> [];
  b_op : forall o, assoc (op_name o) (frame_at st 0) = Some (VFunc (op_name o) (op_arity o));
  b_rel : forall r, assoc (rel_name r) (frame_at st 0) = Some (VFunc (rel_name r) (-2));
  b_key : forall k v, In k [bs "define"; bs "lambda"; bs "let"; bs "if"] -> assoc k (frame_at st 0) = Some v -> is_macro v = false;
  b_fn : forall d, In d P -> assoc (f_name d) (frame_at st 0) = None /\
    ob_lookup st root (f_name d) = Some (VProc (map VSym (f_params d)) false [code (f_body d)] g_env);
  b_free : forall x, unknown P free x -> env_search st g_env x = None }.
Lemma base_same L a b : (0 < L)%nat -> same L a b -> base a -> base b.
Proof.
  intros L0 S B. pose proof (same_frame _ _ _ 0 S L0) as F. destruct S as (_ & LA & LB & M & C & _). destruct B.
  constructor; try (rewrite ?F; assumption).
  - congruence.
  - intros E. rewrite E in LB. destruct (s_frames a); cbn in *; [congruence|lia].
  - intros d I. destruct (b_fn0 d I) as (X & Y). split; [now rewrite F|]. unfold ob_lookup, mod_at in *. now rewrite M.
  - intros x U. specialize (b_free0 x U). unfold env_search, env_exist, search_entry, mod_search, mod_find, ob_lookup, mod_at in *.
    cbn [e_chain e_mod g_env firstn search_chain] in *. rewrite F, M, C.
    assert (UL : forall l, uses_lookup b l x = uses_lookup a l x) by (induction l; cbn; [reflexivity|]; unfold ob_lookup, mod_at; rewrite M; now rewrite IHl).
    now rewrite UL.
Qed.

(* e sees the variables r *)
Record okenv (L : nat) (st : state) (e : env) (r : list (list Z * Z)) : Prop := {
  o_mod : e_mod e = None;
  o_chain : Forall (fun i => i < L)%nat (e_chain e);
  o_len : (0 < L <= length (s_frames st))%nat;
  o_find : forall x, option_map snd (search_chain st (e_chain e) x) =
    match look r x with Some z => Some (VInt z) | None => assoc x (frame_at st 0) end;
  o_names : forall x z, look r x = Some z -> name x /\ small z }.
Lemma okenv_same L a b e r : same L a b -> okenv L a e r -> okenv L b e r.
Proof.
  intros S [M C Le F N]. constructor; auto.
  - pose proof (same_length _ _ _ S). lia.
  - intros x. rewrite (search_chain_same _ _ _ _ _ S C), (same_frame _ _ _ _ S); [auto|lia].
Qed.
Lemma okenv_more L K st e r : okenv L st e r -> (L <= K <= length (s_frames st))%nat -> okenv K st e r.
Proof.
  intros [M C Le F N] H. constructor; auto; [|lia]. eapply Forall_impl; [|exact C]. cbn. intros. lia.
Qed.

(** *** operators *)
Lemma exist_search st e x v : env_exist st e x = Some v -> option_map snd (search_chain st (e_chain e) x) = Some v.
Proof.
  unfold env_exist, search_entry. destruct (e_chain e) as [|a c]; cbn [firstn search_chain]; [discriminate|].
  destruct (assoc x (frame_at st a)); [|discriminate]. now intros [= <-].
Qed.
Lemma head_plain L st e r x : base st -> okenv L st e r -> look r x = None ->
  (forall v, assoc x (frame_at st 0) = Some v -> is_macro v = false) ->
  forall v, head_value st e x = Some v -> is_macro v = false.
Proof.
  intros B O N K v. unfold head_value. destruct (env_exist st e x) as [w|] eqn:E.
  - intros [= <-]. apply exist_search in E. rewrite (o_find _ _ _ _ O), N in E. auto.
  - rewrite (b_cur _ B). cbn [Nat.eqb root]. destruct (assoc x (frame_at st 0)) as [w|] eqn:A; [|discriminate].
    rewrite (K w eq_refl). discriminate.
Qed.
Lemma head_found L st e r x v : base st -> okenv L st e r -> look r x = None -> assoc x (frame_at st 0) = Some v ->
  is_macro v = false -> (head_value st e x = Some v \/ head_value st e x = None) /\ env_search st e x = Some v.
Proof.
  intros B O N A M. split.
  - unfold head_value. destruct (env_exist st e x) as [w|] eqn:E.
    + left. apply exist_search in E. rewrite (o_find _ _ _ _ O), N, A in E. congruence.
    + right. rewrite (b_cur _ B). cbn [Nat.eqb root]. now rewrite A, M.
  - unfold env_search. pose proof (o_find _ _ _ _ O x) as F. rewrite N, A in F. destruct (env_exist st e x) as [w|] eqn:E.
    + apply exist_search in E. congruence.
    + unfold search_entry. destruct (search_chain st (e_chain e) x) as [[i w]|]; cbn in F; [congruence|discriminate].
Qed.
Lemma head_fn L st e r d : base st -> okenv L st e r -> In d P -> look r (f_name d) = None ->
  let v := VProc (map VSym (f_params d)) false [code (f_body d)] g_env in
  head_value st e (f_name d) = None /\ env_search st e (f_name d) = Some v.
Proof.
  intros B O I N v. destruct (b_fn _ B d I) as (A & Ob). pose proof (o_find _ _ _ _ O (f_name d)) as F. rewrite N, A in F.
  assert (X : env_exist st e (f_name d) = None).
  { destruct (env_exist st e (f_name d)) as [w|] eqn:E; [|reflexivity]. apply exist_search in E. congruence. }
  split.
  - unfold head_value. rewrite X, (b_cur _ B). cbn [Nat.eqb root]. now rewrite A.
  - unfold env_search. rewrite X. unfold search_entry. destruct (search_chain st (e_chain e) (f_name d)) as [[? ?]|]; [discriminate F|].
    rewrite (o_mod _ _ _ _ O), (b_cur _ B). unfold mod_search, mod_find. now rewrite Ob.
Qed.
Lemma head_unknown L st e r x : base st -> okenv L st e r -> look r x = None -> unknown P free x ->
  head_value st e x = None /\ env_search st e x = None.
Proof.
  intros B O N U. pose proof (b_free _ B x U) as G. pose proof (o_find _ _ _ _ O x) as F. rewrite N in F.
  unfold env_search in G. cbn [g_env] in G. unfold env_exist, search_entry in G. cbn [e_chain e_mod g_env firstn search_chain] in G.
  destruct (assoc x (frame_at st 0)) as [w|] eqn:A; [discriminate|].
  assert (X : env_exist st e x = None).
  { destruct (env_exist st e x) as [w|] eqn:E; [|reflexivity]. apply exist_search in E. congruence. }
  split.
  - unfold head_value. rewrite X, (b_cur _ B). cbn [Nat.eqb root]. now rewrite A.
  - unfold env_search. rewrite X. unfold search_entry. destruct (search_chain st (e_chain e) x) as [[? ?]|]; [discriminate F|].
    rewrite (o_mod _ _ _ _ O). destruct (mod_search st (s_cur st) x); [exact G|exact A].
Qed.

Lemma step_form n m e k f t d st : (forall v, head_value st e k = Some v -> is_macro v = false) -> form_of k = Some f ->
  step (eval n) m e (VList (VSym k :: t) d) st = special prim (eval n) m e f t st.
Proof.
  intros H F. cbn [EvalModel.step]. unfold ebind at 1, gets. destruct (head_value st e k) as [w|] eqn:E.
  - specialize (H w eq_refl). destruct w; try discriminate; now rewrite F.
  - now rewrite F.
Qed.
Lemma step_call n m e k v t st : form_of k = None -> (head_value st e k = Some v \/ head_value st e k = None) -> env_search st e k = Some v ->
  is_macro v = false ->
  step (eval n) m e (VList (VSym k :: t) false) st = eval n e (VList (v :: t) false) st.
Proof.
  intros F H S M. cbn [EvalModel.step]. unfold ebind at 1, gets. destruct H as [-> | ->].
  - destruct v; try discriminate; rewrite F; unfold ebind, ret; now destruct t.
  - rewrite F. unfold ebind, lookup, gets, ret. unfold ebind. rewrite S. now destruct t.
Qed.
Lemma step_unknown n m e k t st : form_of k = None -> head_value st e k = None -> env_search st e k = None ->
  step (eval n) m e (VList (VSym k :: t) false) st = err st.
Proof.
  intros F H S. cbn [EvalModel.step]. unfold ebind at 1, gets. rewrite H, F. apply err_bind. unfold lookup, gets, ebind. now rewrite S.
Qed.
Lemma step_var n m e x st : name x -> step (eval n) m e (VSym x) st = lookup e x st.
Proof.
  intros ((_ & _ & _ & C & _) & _). cbn [EvalModel.step]. destruct x as [|c r]; [reflexivity|].
  destruct (Z.eqb_spec c 58) as [->|]; [now elim (C r)|reflexivity].
Qed.
Lemma op_form o : form_of (op_name o) = None. Proof. destruct o; reflexivity. Qed.
Lemma rel_form r : form_of (rel_name r) = None. Proof. destruct r; reflexivity. Qed.
Lemma name_form x : name x -> form_of x = None.
Proof.
  intros (_ & K & _). unfold form_of. assert (H : forall p, In p forms -> In (fst p) keywords).
  { intros p I. unfold forms in I. unfold keywords. cbn [In] in I. cbn [map In].
    repeat match type of I with _ \/ _ => destruct I as [<-|I]; [cbn [fst]; auto 40|] end. contradiction. }
  revert H. generalize forms as l. induction l as [|[k f] l IH]; intros H; cbn [form_in]; [reflexivity|].
  rewrite beq_neq; [apply IH; intros p I; apply H; now right|]. intros ->. apply K. apply (H (x, f)). now left.
Qed.
Lemma call_op m ev o x y st : call_func prim ev m (op_name o) (op_arity o) [VInt x; VInt y] st =
  match prim (op_name o) [VInt x; VInt y] with PVal v w => Ret v (emit w st) | PErr => err st end.
Proof. destruct o; unfold call_func; cbn [op_arity]; destruct (prim _ _); reflexivity. Qed.
Lemma call_rel m ev r x y st : call_func prim ev m (rel_name r) (-2) [VInt x; VInt y] st =
  match prim (rel_name r) [VInt x; VInt y] with PVal v w => Ret v (emit w st) | PErr => err st end.
Proof. destruct r; unfold call_func; destruct (prim _ _); reflexivity. Qed.
Lemma step_op n m e o a b st : step (eval n) m e (VList [VFunc (op_name o) (op_arity o); a; b] false) st =
  ebind (eval_args (eval n) e [a; b]) (call_func prim (eval n) m (op_name o) (op_arity o)) st.
Proof. destruct o; reflexivity. Qed.
Lemma step_rel n m e r a b st : step (eval n) m e (VList [VFunc (rel_name r) (-2); a; b] false) st =
  ebind (eval_args (eval n) e [a; b]) (call_func prim (eval n) m (rel_name r) (-2)) st.
Proof. destruct r; reflexivity. Qed.

(** *** arithmetic *)
Lemma small_in64 z : small z -> in64 z = true.
Proof. intros S. apply small_range in S. unfold in64. rewrite andb_true_iff, !Z.leb_le. lia. Qed.
Lemma i64_ok z : small z -> i64 z = Ok z. Proof. intros S. unfold i64. now rewrite small_in64. Qed.
Lemma small_div x y : small x -> small y -> y <> 0 -> div_ok x y.
Proof.
  intros X Y N. unfold div_ok. split; [now apply small_in64|]. split; [now apply small_in64|]. split; [assumption|].
  intros (-> & _). apply small_range in X. lia.
Qed.
Lemma num_op_ok o x y : small x -> small y -> (divides o -> y <> 0) -> small (arith o x y) ->
  num_op o x y = Ok (NumModel.VInt (arith o x y)).
Proof.
  intros X Y D S. unfold divides in D. unfold num_op, arith in *. destruct o.
  - unfold scm_plus, foldM, add_number. cbn [promote is_float orb int_binop bind]. cbn [Z.add]. rewrite (i64_ok x X). cbn [bind promote is_float orb int_binop]. rewrite (i64_ok _ S). reflexivity.
  - unfold scm_minus, foldM, minus_number. cbn [promote is_float orb int_binop bind]. rewrite (i64_ok _ S). reflexivity.
  - unfold scm_times, foldM, mul_number. cbn [promote is_float is_ratio orb int_binop bind]. rewrite Z.mul_1_l, (i64_ok x X). cbn [bind promote is_float is_ratio orb int_binop].
    rewrite (i64_ok _ S). reflexivity.
  - apply c02_quotient. apply small_div; tauto.
  - apply c02_remainder. apply small_div; tauto.
  - apply c02_modulo. apply small_div; tauto.
Qed.
Lemma num_op_zero o x : divides o -> num_op o x 0 = Err.
Proof. intros [->|[->| ->]]; cbn [num_op]; apply c02_zero_divisor. Qed.
Lemma num_rel_ok c x y : num_rel c x y = Ok (NumModel.VBool (holds c x y)).
Proof.
  destruct c; unfold num_rel; cbn [scm_cmp]; unfold cmp_number; cbn [promote is_float orb int_binop bind zcmp holds]; try reflexivity.
  - now rewrite Z.gtb_ltb.
  - now rewrite Z.geb_leb.
Qed.

(** *** outcomes *)
Definition outcome {A} (m : nat -> EM A) (st : state) (w : option A) : Prop :=
  exists N st', ext st st' /\ forall n, (N <= n)%nat -> m n st = match w with Some v => Ret v st' | None => err st' end.
Lemma ext_base a b : ext a b -> base a -> base b.
Proof.
  intros E B. apply (base_same _ _ _) with (2 := E); auto. pose proof (b_frames _ B). destruct (s_frames a); cbn; [congruence|lia].
Qed.
Lemma ext_okenv L a b e r : ext a b -> okenv L a e r -> okenv L b e r.
Proof. intros E O. eapply okenv_same; [|exact O]. apply ext_same; [|exact E]. apply (o_len _ _ _ _ O). Qed.
Lemma ext_trans a b c : ext a b -> ext b c -> ext a c.
Proof. intros X Y. eapply same_trans; [exact X|]. apply ext_same; [|exact Y]. now apply same_length in X. Qed.

Lemma sim_args2 e a b st L r x y : base st -> okenv L st e r ->
  outcome (fun n => eval n e a) st x ->
  (forall st', ext st st' -> outcome (fun n => eval n e b) st' y) ->
  outcome (fun n => eval_args (eval n) e [a; b]) st
    match x, y with Some v, Some w => Some [v; w] | _, _ => None end.
Proof.
  intros B O (N1 & s1 & E1 & H1) Hb. destruct x as [v|].
  - destruct (Hb s1 E1) as (N2 & s2 & E2 & H2). exists (N1 + N2)%nat, s2. split; [now apply (ext_trans st s1)|]. intros n Hn.
    cbn [eval_args]. rewrite (ret_bind _ _ _ _ _ (H1 n ltac:(lia))).
    destruct y as [w|].
    + unfold ebind at 1. unfold ebind at 1. rewrite (H2 n ltac:(lia)). reflexivity.
    + apply err_bind. apply err_bind. apply (H2 n). lia.
  - exists N1, s1. split; [exact E1|]. intros n Hn. cbn [eval_args]. apply err_bind. apply (H1 n). lia.
Qed.

(** *** binding *)
Lemma upd_firstn {A} (l : list A) L i x : (L <= i)%nat -> firstn L (upd l i x) = firstn L l.
Proof. revert L i. induction l as [|y l IH]; intros [|L] [|i] H; cbn; auto; [lia|]. now rewrite IH by lia. Qed.
Lemma set_same L st f F : (L <= f < length (s_frames st))%nat -> same L st (set_frame st f F).
Proof.
  intros H. unfold same, set_frame. cbn [s_frames s_mods s_cur s_proms s_dyn]. rewrite upd_firstn, EnvProofs.upd_length by lia.
  repeat split; lia.
Qed.
Lemma insert_ok L st fe f c x v : e_chain fe = f :: c -> (L <= f < length (s_frames st))%nat ->
  exists st', insert fe x v st = Ret tt st' /\ same L st st' /\ length (s_frames st') = length (s_frames st) /\
    forall y, assoc y (frame_at st' f) = if beq x y then Some v else assoc y (frame_at st f).
Proof.
  intros E H. unfold insert, modify, env_insert, search_entry. rewrite E. cbn [firstn search_chain].
  assert (G : forall F, frame_at (set_frame st f F) f = F).
  { intros F. unfold frame_at, set_frame. cbn [s_frames]. rewrite EnvProofs.nth_upd by lia. now rewrite Nat.eqb_refl. }
  destruct (assoc x (frame_at st f)) as [w|] eqn:A; eexists; (split; [reflexivity|]); (split; [now apply set_same|]);
    (split; [cbn [set_frame s_frames]; apply EnvProofs.upd_length|]); intros y; rewrite G.
  - apply EnvProofs.assoc_put.
  - reflexivity.
Qed.
Lemma beq_look (x y : list Z) {A} (a b : A) : (if beq x y then a else b) = if list_eq_dec Z.eq_dec x y then a else b.
Proof. destruct (list_eq_dec Z.eq_dec x y) as [->|N]; [now rewrite beq_refl|now rewrite beq_neq]. Qed.
Lemma look_combine_none ps vs x : ~ In x ps -> look (combine ps vs) x = None.
Proof.
  revert vs. induction ps as [|p ps IH]; intros [|v vs] N; cbn; auto. destruct (list_eq_dec Z.eq_dec p x) as [->|_]; [now elim N; left|].
  apply IH. intros I. apply N. now right.
Qed.
(* what binding ps to es does *)
Definition binds (r : list (list Z * Z)) (es : list exp) (w : option (list Z)) : Prop :=
  forall ps st ce fe f c L, length ps = length es -> NoDup ps -> base st -> okenv L st ce r ->
    e_chain fe = f :: c -> (L <= f < length (s_frames st))%nat ->
    exists N st', same L st st' /\
      (forall vs, w = Some vs -> forall y, assoc y (frame_at st' f) =
         match look (combine ps vs) y with Some z => Some (VInt z) | None => assoc y (frame_at st f) end) /\
      forall n, (N <= n)%nat -> forall ps2 args2,
        bind_loop (eval n) ce fe false (map VSym ps ++ ps2) (map code es ++ args2) st =
        match w with Some _ => bind_loop (eval n) ce fe false ps2 args2 st' | None => err st' end.
Definition evals (r : list (list Z * Z)) (e : exp) (w : option Z) : Prop :=
  forall st ce L, base st -> okenv L st ce r -> outcome (fun n => eval n ce (code e)) st (match w with Some z => Some (VInt z) | None => None end).

Lemma binds_nil r : binds r [] (Some []).
Proof.
  intros [|] st ce fe f c L H ND0 B O E Hf; [|discriminate]. exists 0%nat, st. split; [apply same_refl; lia|]. split.
  - intros vs [= <-] y. reflexivity.
  - reflexivity.
Qed.
Lemma binds_head r a l : evals r a None -> binds r (a :: l) None.
Proof.
  intros Ha [|p ps] st ce fe f c L H ND0 B O E Hf; [discriminate|]. destruct (Ha st ce L B O) as (N & s1 & E1 & H1).
  exists N, s1. split; [apply ext_same; [lia|exact E1]|]. split; [discriminate|]. intros n Hn ps2 args2.
  cbn [map app bind_loop is_sym]. now apply err_bind, H1.
Qed.
Lemma binds_cons r a l x w : evals r a (Some x) -> binds r l w -> binds r (a :: l) match w with Some vs => Some (x :: vs) | None => None end.
Proof.
  intros Ha Hl [|p ps] st ce fe f c L H ND0 B O E Hf; [discriminate|]. destruct (Ha st ce L B O) as (N1 & s1 & E1 & H1).
  pose proof (same_length _ _ _ E1) as LE1.
  destruct (insert_ok L s1 fe f c p (VInt x) E ltac:(lia)) as (s2 & I2 & S2 & LE2 & F2).
  assert (S12 : same L st s2). { apply same_trans with s1; [apply ext_same; [lia|exact E1]|exact S2]. }
  inversion ND0 as [|? ? NI ND1]; subst.
  destruct (Hl ps s2 ce fe f c L) as (N3 & s3 & S3 & F3 & H3); auto.
  { apply (base_same L st); auto. pose proof (o_len _ _ _ _ O). lia. }
  { eapply okenv_same; eauto. }
  { lia. }
  exists (N1 + N3)%nat, s3. split; [now apply same_trans with s2|]. split.
  - intros vs V y. destruct w as [vs'|]; [|discriminate]. injection V as <-. rewrite (F3 vs' eq_refl y).
    cbn [combine look]. rewrite F2, beq_look. destruct (list_eq_dec Z.eq_dec p y) as [->|Ny].
    + now rewrite look_combine_none.
    + rewrite (same_frame _ _ _ f E1) by lia. reflexivity.
  - intros n Hn ps2 args2. cbn [map app bind_loop is_sym]. rewrite (ret_bind _ _ _ _ _ (H1 n ltac:(lia))).
    rewrite (ret_bind _ _ _ _ _ I2). rewrite H3 by lia. now destruct w.
Qed.

(** *** entering a procedure *)
Lemma alloc_ok st pe : let st1 := mkState (s_frames st ++ [[]]) (s_mods st) (s_cur st) (s_proms st) (s_dyn st) in
  alloc_frame pe st = Ret (mkEnv (length (s_frames st) :: e_chain pe) (e_mod pe)) st1 /\
  ext st st1 /\ length (s_frames st1) = S (length (s_frames st)) /\ frame_at st1 (length (s_frames st)) = [].
Proof.
  cbn. split; [reflexivity|]. split; [|split].
  - unfold ext, same. cbn [s_frames s_mods s_cur s_proms s_dyn]. rewrite firstn_app, Nat.sub_diag, app_length. cbn [firstn].
    rewrite app_nil_r. repeat split; lia.
  - rewrite app_length. cbn. lia.
  - unfold frame_at. cbn [s_frames]. rewrite app_nth2, Nat.sub_diag by lia. reflexivity.
Qed.
(* the body, in an environment whose parent sees r0 and whose own frame binds ps *)
Lemma enter pe r0 r ps vs es body w st ce L :
  base st -> okenv L st ce r -> okenv L st pe r0 ->
  length ps = length es -> NoDup ps -> Forall name ps -> length vs = length ps -> Forall small vs ->
  binds r es (Some vs) ->
  evals (combine ps vs ++ r0) body w ->
  outcome (fun n => apply_proc (eval n) ce (map VSym ps) false [code body] pe (map code es)) st
    (match w with Some z => Some (VInt z) | None => None end).
Proof.
  intros B O Op Hl ND0 Nm Lv Sm Hb Hbody. destruct (alloc_ok st pe) as (A & E1 & L1 & Fr).
  set (st1 := mkState (s_frames st ++ [[]]) (s_mods st) (s_cur st) (s_proms st) (s_dyn st)) in *.
  set (fe := mkEnv (length (s_frames st) :: e_chain pe) (e_mod pe)) in *.
  set (K := length (s_frames st)) in *. pose proof (o_len _ _ _ _ O) as LL.
  assert (OK : okenv K st ce r) by (apply (okenv_more L); auto; lia).
  assert (OKp : okenv K st pe r0) by (apply (okenv_more L); auto; lia).
  destruct (Hb ps st1 ce fe K (e_chain pe) K Hl ND0 (ext_base _ _ E1 B) (okenv_same _ _ _ _ _ E1 OK) eq_refl ltac:(lia)) as (N2 & s2 & S2 & F2 & H2).
  specialize (F2 vs eq_refl).
  assert (S02 : ext st s2) by (apply same_trans with st1; auto).
  pose proof (same_length _ _ _ S2) as LE2.
  destruct (Hbody s2 fe (S K)) as (N3 & s3 & E3 & H3).
  - now apply (ext_base st).
  - destruct (okenv_same _ _ _ _ _ S02 OKp) as [M C Le F Nn]. constructor.
    + exact M.
    + unfold fe. cbn [e_chain]. constructor; [lia|]. eapply Forall_impl; [|exact C]. cbn. lia.
    + lia.
    + intros x. unfold fe. cbn [e_chain search_chain]. rewrite F2, Fr.
      assert (LK : look (combine ps vs ++ r0) x = match look (combine ps vs) x with Some z => Some z | None => look r0 x end).
      { clear. generalize (combine ps vs) as l. induction l as [|[y z] l IH]; cbn; [reflexivity|]. destruct (list_eq_dec Z.eq_dec y x); auto. }
      rewrite LK. destruct (look (combine ps vs) x) as [z|]; [reflexivity|]. cbn [assoc]. apply F.
    + intros x z. assert (LK : look (combine ps vs ++ r0) x = match look (combine ps vs) x with Some z => Some z | None => look r0 x end).
      { clear. generalize (combine ps vs) as l. induction l as [|[y z0] l IH]; cbn; [reflexivity|]. destruct (list_eq_dec Z.eq_dec y x); auto. }
      rewrite LK. destruct (look (combine ps vs) x) as [z'|] eqn:Q; [|apply Nn]. intros [= <-].
      clear - Q Nm Sm. revert vs Sm Q. induction Nm as [|p ps Np _ IH]; intros [|v vs] Sm Q; try discriminate. inversion Sm; subst.
      cbn in Q. destruct (list_eq_dec Z.eq_dec p x) as [->|]; [injection Q as <-; auto|eauto].
  - exists (N2 + N3)%nat, s3. split; [apply same_trans with s2; [exact S02|apply ext_same; [lia|exact E3]]|]. intros n Hn.
    unfold apply_proc. rewrite (ret_bind _ _ _ _ _ A). cbn [has_rest andb]. specialize (H2 n ltac:(lia) [] []).
    rewrite !app_nil_r in H2. cbn [bind_loop ret] in H2. fold fe. cbn zeta. rewrite (ret_bind _ _ _ _ _ H2). cbn [eval_body].
    rewrite H3 by lia. now destruct w.
Qed.

(** *** the rules *)
Scheme ev_min := Minimality for ev Sort Prop with evs_min := Minimality for evs Sort Prop.
Combined Scheme ev_evs_min from ev_min, evs_min.

Lemma forall_firstn {A} (Q : A -> Prop) n l : Forall Q l -> Forall Q (firstn n l).
Proof. intros F. rewrite <- (firstn_skipn n l) in F. apply Forall_app in F. tauto. Qed.
Definition smalls (r : list (list Z * Z)) : Prop := forall x z, look r x = Some z -> small z.
Lemma smalls_combine ps vs : Forall small vs -> smalls (combine ps vs).
Proof.
  unfold smalls. intros F. revert ps. induction F as [|v vs V _ IH]; intros [|p ps] x z; cbn; try discriminate.
  destruct (list_eq_dec Z.eq_dec p x); [intros [= <-]; auto|apply IH].
Qed.
Lemma ev_small_both :
  (forall r e w, ev P free r e w -> wf e -> smalls r -> forall z, w = Some z -> small z) /\
  (forall r es w, evs P free r es w -> Forall wf es -> smalls r -> forall vs, w = Some vs -> Forall small vs).
Proof.
  apply ev_evs_min; try (intros; discriminate).
  - intros r z W _ z' [= <-]. now inversion W.
  - intros r x z E _ S z' [= <-]. eapply S; eauto.
  - intros r o a b x y _ _ _ _ _ S _ _ z [= <-]. exact S.
  - intros r c a b t f x y w _ _ _ _ _ IH W S. inversion W; subst. apply IH; auto. now destruct (holds c x y).
  - intros r x a b z w _ IHa _ IHb W S. inversion W; subst. apply IHb; auto. intros y z'. cbn.
    destruct (list_eq_dec Z.eq_dec x y); [intros [= <-]; eauto|apply S].
  - intros r f args d vs w _ I <- _ IHs Lv _ IHb W S. inversion W; subst. rewrite Forall_forall in WP. destruct (WP d I) as (_ & _ & _ & Wb).
    apply IHb; auto. apply smalls_combine. eapply IHs; eauto.
  - intros r _ _ vs [= <-]. constructor.
  - intros r a l x vs _ IHa _ IHl W S vs' [= <-]. inversion W; subst. constructor; eauto.
Qed.

Lemma outcome_step {A} (m m' : nat -> EM A) st w : (forall n, m' (S n) st = m n st) -> outcome m st w -> outcome m' st w.
Proof. intros H (N & s & E & R). exists (S N), s. split; [exact E|]. intros [|n] Hn; [lia|]. rewrite H. apply R. lia. Qed.
Lemma outcome_step1 {A} (m m' : nat -> EM A) st w : (forall n, (1 <= n)%nat -> m' (S n) st = m n st) -> outcome m st w -> outcome m' st w.
Proof. intros H (N & s & E & R). exists (S (S N)), s. split; [exact E|]. intros [|n] Hn; [lia|]. rewrite H by lia. apply R. lia. Qed.
Lemma eval_S n e x st : eval (S n) e x st = step (eval n) n e x st. Proof. reflexivity. Qed.

Lemma evals_bin r o a b x y : look r (op_name o) = None -> evals r a x -> (forall v, x = Some v -> evals r b y) ->
  (forall v w, x = Some v -> y = Some w -> small v /\ small w) ->
  forall res, match x, y with
    | Some v, Some w => (res = None /\ divides o /\ w = 0) \/ (res = Some (arith o v w) /\ (divides o -> w <> 0) /\ small (arith o v w))
    | _, _ => res = None end ->
  evals r (Bin o a b) res.
Proof.
  intros NL Ha Hb Sm res HR st ce L B O. cbn [code].
  assert (F : head_value st ce (op_name o) = Some (VFunc (op_name o) (op_arity o)) \/ head_value st ce (op_name o) = None) by
    (apply (head_found L st ce r); auto; apply (b_op _ B)).
  assert (SV : env_search st ce (op_name o) = Some (VFunc (op_name o) (op_arity o))) by (apply (head_found L st ce r); auto; apply (b_op _ B)).
  apply (outcome_step (fun n => eval n ce (VList [VFunc (op_name o) (op_arity o); code a; code b] false))).
  { intros n. rewrite eval_S. apply step_call; auto. apply op_form. }
  destruct x as [v|].
  2:{ subst res. destruct (Ha st ce L B O) as (N & s & E & H). exists (S N), s. split; [exact E|]. intros [|n] Hn; [lia|].
      rewrite eval_S, step_op. apply err_bind. cbn [eval_args]. apply err_bind, H. lia. }
  assert (Hargs := sim_args2 ce (code a) (code b) st L r (Some (VInt v)) (match y with Some w => Some (VInt w) | None => None end) B O (Ha st ce L B O)
    (fun s' E => Hb v eq_refl s' ce L (ext_base _ _ E B) (ext_okenv _ _ _ _ _ E O))).
  destruct Hargs as (N & s & E & H). exists (S N), s. split; [exact E|]. intros [|n] Hn; [lia|].
  rewrite eval_S, step_op. specialize (H n ltac:(lia)). destruct y as [w|].
  - rewrite (ret_bind _ _ _ _ _ H), call_op. destruct (Sm v w eq_refl eq_refl) as (Sv & Sw). destruct HR as [(-> & D & ->)|(-> & D & S)].
    + now rewrite (n_err _ HN _ _ _ (num_op_zero o v D)).
    + rewrite (n_op _ HN _ _ _ _ (num_op_ok o v w Sv Sw D S)). now rewrite emit_nil.
  - subst res. now apply err_bind.
Qed.

Lemma test_ok r c a b x y : look r (rel_name c) = None -> evals r a x -> (forall v, x = Some v -> evals r b y) ->
  forall st ce L, base st -> okenv L st ce r ->
  outcome (fun n => eval n ce (VList [VSym (rel_name c); code a; code b] false)) st
    match x, y with Some v, Some w => Some (VBool (holds c v w)) | _, _ => None end.
Proof.
  intros NL Ha Hb st ce L B O.
  assert (F : head_value st ce (rel_name c) = Some (VFunc (rel_name c) (-2)) \/ head_value st ce (rel_name c) = None) by
    (apply (head_found L st ce r); auto; apply (b_rel _ B)).
  assert (SV : env_search st ce (rel_name c) = Some (VFunc (rel_name c) (-2))) by (apply (head_found L st ce r); auto; apply (b_rel _ B)).
  apply (outcome_step (fun n => eval n ce (VList [VFunc (rel_name c) (-2); code a; code b] false))).
  { intros n. rewrite eval_S. apply step_call; auto. apply rel_form. }
  destruct x as [v|].
  2:{ destruct (Ha st ce L B O) as (N & s & E & H). exists (S N), s. split; [exact E|]. intros [|n] Hn; [lia|].
      rewrite eval_S, step_rel. apply err_bind. cbn [eval_args]. apply err_bind, H. lia. }
  assert (Hargs := sim_args2 ce (code a) (code b) st L r (Some (VInt v)) (match y with Some w => Some (VInt w) | None => None end) B O (Ha st ce L B O)
    (fun s' E => Hb v eq_refl s' ce L (ext_base _ _ E B) (ext_okenv _ _ _ _ _ E O))).
  destruct Hargs as (N & s & E & H). exists (S N), s. split; [exact E|]. intros [|n] Hn; [lia|].
  rewrite eval_S, step_rel. specialize (H n ltac:(lia)). destruct y as [w|].
  - rewrite (ret_bind _ _ _ _ _ H), call_rel. rewrite (n_rel _ HN _ _ _ _ (num_rel_ok c v w)). now rewrite emit_nil.
  - now apply err_bind.
Qed.
Lemma key_plain L st e r k : base st -> okenv L st e r -> look r k = None -> In k [bs "define"; bs "lambda"; bs "let"; bs "if"] ->
  forall v, head_value st e k = Some v -> is_macro v = false.
Proof. intros B O N I. apply (head_plain L st e r k B O N). intros v. now apply (b_key _ B). Qed.

Lemma evals_if r c a b t f x y w : look r (rel_name c) = None -> look r (bs "if") = None ->
  evals r a x -> (forall v, x = Some v -> evals r b y) ->
  (forall v u, x = Some v -> y = Some u -> evals r (if holds c v u then t else f) w) ->
  ((x = None \/ y = None) -> w = None) ->
  evals r (If c a b t f) w.
Proof.
  intros NL NI Ha Hb Hr HN0 st ce L B O. cbn [code].
  destruct (test_ok r c a b x y NL Ha Hb st ce L B O) as (N & s & E & H).
  assert (PL := key_plain L st ce r (bs "if") B O NI ltac:(cbn; tauto)).
  destruct x as [v|]; [destruct y as [u|]|].
  - destruct (Hr v u eq_refl eq_refl s ce L (ext_base _ _ E B) (ext_okenv _ _ _ _ _ E O)) as (N2 & s2 & E2 & H2).
    exists (S (N + N2))%nat, s2. split; [now apply ext_trans with s|]. intros [|n] Hn; [lia|].
    rewrite eval_S. unfold sym. rewrite (step_form n n ce (bs "if") FIf) by auto. cbn [special do_if]. unfold do_if.
    rewrite (ret_bind _ _ _ _ _ (H n ltac:(lia))). cbn [truthy]. specialize (H2 n ltac:(lia)). destruct (holds c v u); exact H2.
  - rewrite (HN0 (or_intror eq_refl)). exists (S N), s. split; [exact E|]. intros [|n] Hn; [lia|].
    rewrite eval_S. unfold sym. rewrite (step_form n n ce (bs "if") FIf) by auto. cbn [special do_if]. apply err_bind, H. lia.
  - rewrite (HN0 (or_introl eq_refl)). exists (S N), s. split; [exact E|]. intros [|n] Hn; [lia|].
    rewrite eval_S. unfold sym. rewrite (step_form n n ce (bs "if") FIf) by auto. cbn [special do_if]. apply err_bind, H. lia.
Qed.

Lemma evals_let r x a b z w : name x -> look r (bs "let") = None -> look r (bs "lambda") = None ->
  evals r a z -> (forall v, z = Some v -> small v /\ evals ((x, v) :: r) b w) -> (z = None -> w = None) ->
  evals r (Let x a b) w.
Proof.
  intros Nx NL NLa Ha Hb HN0 st ce L B O. cbn [code].
  assert (PL := key_plain L st ce r (bs "let") B O NL ltac:(cbn; tauto)).
  assert (PLa := key_plain L st ce r (bs "lambda") B O NLa ltac:(cbn; tauto)).
  apply (outcome_step (fun n => eval n ce (VList [VList [sym "lambda"; VList [VSym x] false; code b] false; code a] false))).
  { intros n. rewrite eval_S. unfold sym at 1. rewrite (step_form n n ce (bs "let") FLet) by auto. reflexivity. }
  apply (outcome_step1 (fun n => eval n ce (VList [VProc [VSym x] false [code b] ce; code a] false)) ).
  2:{ apply (outcome_step (fun n => apply_proc (eval n) ce (map VSym [x]) false [code b] ce (map code [a]))); [intros n; reflexivity|].
      destruct z as [v|].
      - destruct (Hb v eq_refl) as (Sv & Eb). apply (enter ce r r [x] [v] [a] b w st ce L); auto.
        + repeat constructor. intros [].
        + exact (binds_cons r a [] v (Some []) Ha (binds_nil r)).
      - rewrite (HN0 eq_refl). destruct (alloc_ok st ce) as (A & E1 & L1 & Fr).
        set (st1 := mkState (s_frames st ++ [[]]) (s_mods st) (s_cur st) (s_proms st) (s_dyn st)) in *.
        pose proof (o_len _ _ _ _ O).
        destruct (Ha st1 ce L (ext_base _ _ E1 B) (ext_okenv _ _ _ _ _ E1 O)) as (N2 & s2 & E2 & H2).
        exists N2, s2. split; [now apply ext_trans with st1|]. intros n Hn. unfold apply_proc. rewrite (ret_bind _ _ _ _ _ A).
        cbn [has_rest andb]. cbn zeta. apply err_bind. cbn [map bind_loop is_sym]. apply err_bind, H2, Hn. }
  intros n Hn. rewrite eval_S. cbn [EvalModel.step]. destruct n as [|n]; [lia|].
  assert (LA : eval (S n) ce (VList [sym "lambda"; VList [VSym x] false; code b] false) st = Ret (VProc [VSym x] false [code b] ce) st).
  { rewrite eval_S. unfold sym. rewrite (step_form n n ce (bs "lambda") FLambda) by auto. reflexivity. }
  now rewrite (ret_bind _ _ _ _ _ LA).
Qed.

(** *** calls *)
Lemma call_step r d args st ce L : In d P -> look r (f_name d) = None -> base st -> okenv L st ce r ->
  forall w, outcome (fun n => apply_proc (eval n) ce (map VSym (f_params d)) false [code (f_body d)] g_env (map code args)) st w ->
  outcome (fun n => eval n ce (code (Call (f_name d) args))) st w.
Proof.
  intros I NL B O w H. cbn [code]. destruct (head_fn L st ce r d B O I NL) as (H1 & H2).
  assert (Nf : name (f_name d)). { rewrite Forall_forall in WP. now apply (WP d I). }
  apply (outcome_step (fun n => eval n ce (VList (VProc (map VSym (f_params d)) false [code (f_body d)] g_env :: map code args) false))).
  { intros n. rewrite eval_S. apply step_call; [now apply name_form|now right|exact H2|reflexivity]. }
  eapply outcome_step; [|exact H]. intros n. reflexivity.
Qed.
Lemma okenv_global st : base st -> okenv (length (s_frames st)) st g_env [].
Proof.
  intros B. pose proof (b_frames _ B). assert (0 < length (s_frames st))%nat by (destruct (s_frames st); cbn; [congruence|lia]).
  constructor; auto.
  - repeat constructor. assumption.
  - intros x. cbn [g_env e_chain search_chain look]. now destruct (assoc x (frame_at st 0)).
  - discriminate.
Qed.
(* operands that do not fit, or one of the fitting ones fails *)
Lemma enter_fails pe r0 r ps es ps2 args2 body v st ce L :
  base st -> okenv L st ce r -> okenv L st pe r0 -> length ps = length es -> NoDup ps ->
  binds r es v -> (v <> None -> (ps2 = [] <-> args2 <> [])) ->
  outcome (fun n => apply_proc (eval n) ce (map VSym (ps ++ ps2)) false [body] pe (map code (es ++ args2))) st None.
Proof.
  intros B O Op Hl ND0 Hb Hv. destruct (alloc_ok st pe) as (A & E1 & L1 & Fr).
  set (st1 := mkState (s_frames st ++ [[]]) (s_mods st) (s_cur st) (s_proms st) (s_dyn st)) in *.
  set (fe := mkEnv (length (s_frames st) :: e_chain pe) (e_mod pe)) in *.
  set (K := length (s_frames st)) in *. pose proof (o_len _ _ _ _ O) as LL.
  assert (OK : okenv K st ce r) by (apply (okenv_more L); auto; lia).
  destruct (Hb ps st1 ce fe K (e_chain pe) K Hl ND0 (ext_base _ _ E1 B) (okenv_same _ _ _ _ _ E1 OK) eq_refl ltac:(lia)) as (N2 & s2 & S2 & _ & H2).
  exists N2, s2. split; [now apply same_trans with st1|]. intros n Hn.
  unfold apply_proc. rewrite (ret_bind _ _ _ _ _ A). cbn [has_rest andb]. cbn zeta. specialize (H2 n Hn (map VSym ps2) (map code args2)).
  rewrite <- !map_app in H2. fold fe. destruct v as [vs|]; [|now apply err_bind].
  unfold ebind at 1. rewrite H2. specialize (Hv ltac:(discriminate)).
  destruct ps2 as [|p ps2], args2 as [|a args2]; cbn [map bind_loop ret].
  - destruct Hv as (Hv & _). now elim (Hv eq_refl).
  - reflexivity.
  - reflexivity.
  - destruct Hv as (_ & Hv). discriminate (Hv ltac:(discriminate)).
Qed.

Lemma names_free r L st e x : okenv L st e r -> (forall z, look r x = Some z -> ~ name x) -> look r x = None.
Proof. intros O H. destruct (look r x) as [z|] eqn:E; [|reflexivity]. destruct (o_names _ _ _ _ O x z E) as (N & _). now elim (H z eq_refl). Qed.
Lemma not_op o : ~ name (op_name o). Proof. intros (_ & _ & N & _). now apply (N o). Qed.
Lemma not_rel c : ~ name (rel_name c). Proof. intros (_ & _ & _ & N). now apply (N c). Qed.
Lemma not_key k : In k keywords -> ~ name k. Proof. intros I (_ & N & _). contradiction. Qed.

Definition names_ok (r : list (list Z * Z)) : Prop := forall x z, look r x = Some z -> name x /\ small z.
Lemma names_none r x : names_ok r -> ~ name x -> look r x = None.
Proof. intros H N. destruct (look r x) as [z|] eqn:E; [|reflexivity]. now elim N; apply (H x z). Qed.
Lemma names_combine ps vs : Forall name ps -> Forall small vs -> names_ok (combine ps vs).
Proof.
  intros F. revert vs. induction F as [|p ps Np _ IH]; intros [|v vs] Sm x z; cbn; try discriminate. inversion Sm; subst.
  destruct (list_eq_dec Z.eq_dec p x) as [->|]; [intros [= <-]; auto|apply IH; auto].
Qed.

Lemma nodup_firstn {A} n (l : list A) : NoDup l -> NoDup (firstn n l).
Proof.
  intros D. revert n. induction D as [|x l Nx _ IH]; intros [|n]; cbn; constructor; auto.
  intros I. apply Nx. rewrite <- (firstn_skipn n l). apply in_or_app. now left.
Qed.
Lemma evs_length r es vs : evs P free r es (Some vs) -> length es = length vs.
Proof. remember (Some vs) as w eqn:Q. intros E. revert vs Q. induction E; intros ws [= <-]; cbn; auto. Qed.
Lemma small_ev r e z : ev P free r e (Some z) -> wf e -> names_ok r -> small z.
Proof. intros E W N. apply (proj1 ev_small_both _ _ _ E W) with (z := z); auto. intros k u Q. apply (N k u Q). Qed.
Theorem follows :
  (forall r e w, ev P free r e w -> wf e -> names_ok r -> evals r e w) /\
  (forall r es w, evs P free r es w -> Forall wf es -> names_ok r -> binds r es w).
Proof.
  apply ev_evs_min.
  - intros r z _ _ st ce L B O. exists 1%nat, st. split; [apply ext_refl|]. intros [|n] Hn; [lia|]. reflexivity.
  - intros r x z E W _ st ce L B O. exists 1%nat, st. split; [apply ext_refl|]. intros [|n] Hn; [lia|].
    cbn [code]. rewrite eval_S. inversion W; subst. rewrite step_var by assumption. unfold lookup, ebind, gets.
    pose proof (o_find _ _ _ _ O x) as F. rewrite E in F. unfold env_search. destruct (env_exist st ce x) as [v|] eqn:X.
    + apply exist_search in X. assert (v = VInt z) by congruence. now subst.
    + unfold search_entry. destruct (search_chain st (e_chain ce) x) as [[i v]|]; [|discriminate F]. cbn in F. injection F as ->. reflexivity.
  - intros r x E U W _ st ce L B O. exists 1%nat, st. split; [apply ext_refl|]. intros [|n] Hn; [lia|].
    cbn [code]. rewrite eval_S. inversion W; subst. rewrite step_var by assumption. unfold lookup, ebind, gets.
    destruct (head_unknown L st ce r x B O E U) as (_ & ->). reflexivity.
  - intros r o a b x y Ea IHa Eb IHb D S W N. inversion W; subst.
    apply (evals_bin r o a b (Some x) (Some y)); auto.
    + apply names_none; auto. apply not_op.
    + intros v w [= <-] [= <-]. assert (Wa : wf a) by assumption. assert (Wb : wf b) by assumption.
      split; [exact (small_ev _ _ _ Ea Wa N)|exact (small_ev _ _ _ Eb Wb N)].
  - intros r o a b x Ea IHa Eb IHb D W N. inversion W; subst.
    apply (evals_bin r o a b (Some x) (Some 0)); auto.
    + apply names_none; auto. apply not_op.
    + intros v w [= <-] [= <-]. assert (Wa : wf a) by assumption. assert (Wb : wf b) by assumption.
      split; [exact (small_ev _ _ _ Ea Wa N)|exact (small_ev _ _ _ Eb Wb N)].
  - intros r o a b Ea IHa W N. inversion W; subst.
    apply (evals_bin r o a b None None); auto; try (intros; discriminate). apply names_none; auto. apply not_op.
  - intros r o a b x Ea IHa Eb IHb W N. inversion W; subst.
    apply (evals_bin r o a b (Some x) None); auto; try (intros; discriminate). apply names_none; auto. apply not_op.
  - intros r c a b t f x y w Ea IHa Eb IHb Er IHr W N. inversion W; subst.
    apply (evals_if r c a b t f (Some x) (Some y) w); auto.
    + apply names_none; auto. apply not_rel.
    + apply names_none; auto. apply not_key. apply in_map. cbn. tauto.
    + intros v u [= <-] [= <-]. apply IHr; auto. now destruct (holds c x y).
    + intros [?|?]; discriminate.
  - intros r c a b t f Ea IHa W N. inversion W; subst.
    apply (evals_if r c a b t f None None None); auto; try (intros; discriminate).
    + apply names_none; auto. apply not_rel.
    + apply names_none; auto. apply not_key. apply in_map. cbn. tauto.
  - intros r c a b t f x Ea IHa Eb IHb W N. inversion W; subst.
    apply (evals_if r c a b t f (Some x) None None); auto; try (intros; discriminate).
    + apply names_none; auto. apply not_rel.
    + apply names_none; auto. apply not_key. apply in_map. cbn. tauto.
  - intros r x a b z w Ea IHa Eb IHb W N. inversion W; subst.
    apply (evals_let r x a b (Some z) w); auto; try (intros; discriminate).
    + apply names_none; auto. apply not_key. apply in_map. cbn. tauto.
    + apply names_none; auto. apply not_key. apply in_map. cbn. tauto.
    + intros v [= <-]. assert (Wa : wf a) by assumption. assert (Sz : small z) by exact (small_ev _ _ _ Ea Wa N).
      split; [assumption|]. apply IHb; auto. intros y u. cbn.
      destruct (list_eq_dec Z.eq_dec x y) as [->|]; [intros [= <-]; auto|apply N].
  - intros r x a b Ea IHa W N. inversion W; subst.
    apply (evals_let r x a b None None); auto; try (intros; discriminate).
    + apply names_none; auto. apply not_key. apply in_map. cbn. tauto.
    + apply names_none; auto. apply not_key. apply in_map. cbn. tauto.
  - intros r f args d vs w Lf I <- Es IHs Lv Eb IHb W N st ce L B O. inversion W; subst.
    assert (WD : wf_fn d). { rewrite Forall_forall in WP. now apply WP. }
    destruct WD as (Nf & Np & Nd & Wb).
    assert (Sv : Forall small vs).
    { apply (proj2 ev_small_both _ _ _ Es) with (vs := vs); auto. intros k u Q. apply (N k u Q). }
    apply (call_step r d args st ce L); auto.
    apply (enter g_env [] r (f_params d) vs args (f_body d) w st ce (length (s_frames st))); auto.
    + apply (okenv_more L); auto. pose proof (o_len _ _ _ _ O). lia.
    + now apply okenv_global.
    + rewrite <- Lv. symmetry. eapply evs_length; eauto.
    + rewrite app_nil_r. apply IHb; auto. now apply names_combine.
  - intros r f args d Lf I <- Es IHs W N st ce L B O. inversion W; subst.
    assert (WD : wf_fn d). { rewrite Forall_forall in WP. now apply WP. }
    destruct WD as (Nf & Np & Nd & Wb).
    apply (call_step r d args st ce L); auto. rewrite <- (firstn_skipn (length (f_params d)) args).
    set (es := firstn (length (f_params d)) args) in *.
    assert (LE : (length es <= length (f_params d))%nat) by (unfold es; rewrite firstn_length; lia).
    replace (map VSym (f_params d)) with (map VSym (firstn (length es) (f_params d) ++ skipn (length es) (f_params d))) by (now rewrite firstn_skipn).
    apply (enter_fails g_env [] r (firstn (length es) (f_params d)) es _ _ _ None st ce (length (s_frames st))); auto.
    + apply (okenv_more L); auto. pose proof (o_len _ _ _ _ O). lia.
    + now apply okenv_global.
    + rewrite firstn_length. lia.
    + now apply nodup_firstn.
    + apply IHs; auto. now apply forall_firstn.
    + congruence.
  - intros r f args d vs Lf I <- Es IHs NE W N st ce L B O. inversion W; subst.
    assert (WD : wf_fn d). { rewrite Forall_forall in WP. now apply WP. }
    destruct WD as (Nf & Np & Nd & Wb).
    apply (call_step r d args st ce L); auto. rewrite <- (firstn_skipn (length (f_params d)) args).
    set (es := firstn (length (f_params d)) args) in *.
    assert (LE : (length es = Nat.min (length (f_params d)) (length args))%nat) by (unfold es; now rewrite firstn_length).
    replace (map VSym (f_params d)) with (map VSym (firstn (length es) (f_params d) ++ skipn (length es) (f_params d))) by (now rewrite firstn_skipn).
    apply (enter_fails g_env [] r (firstn (length es) (f_params d)) es _ _ _ (Some vs) st ce (length (s_frames st))); auto.
    + apply (okenv_more L); auto. pose proof (o_len _ _ _ _ O). lia.
    + now apply okenv_global.
    + rewrite firstn_length. lia.
    + now apply nodup_firstn.
    + apply IHs; auto. now apply forall_firstn.
    + intros _. assert (L1 := skipn_length (length es) (f_params d)). assert (L2 := skipn_length (length (f_params d)) args).
      destruct (skipn (length es) (f_params d)) as [|p ps]; destruct (skipn (length (f_params d)) args) as [|a2 l2]; cbn in L1, L2;
        (split; [intros X; try discriminate X|intros X; try reflexivity; try (now elim X)]); try discriminate; lia.
  - intros r f args Lf U W N st ce L B O. inversion W; subst. exists 1%nat, st. split; [apply ext_refl|]. intros [|n] Hn; [lia|].
    cbn [code]. rewrite eval_S. destruct (head_unknown L st ce r f B O Lf U) as (X & Y). apply step_unknown; auto. now apply name_form.
  - intros r _ _. apply binds_nil.
  - intros r a l x vs _ IHa _ IHl W N. inversion W; subst. apply (binds_cons r a l x (Some vs)); auto.
  - intros r a l _ IHa W N. inversion W; subst. apply binds_head; auto.
  - intros r a l x _ IHa _ IHl W N. inversion W; subst. apply (binds_cons r a l x None); auto.
Qed.
End Sim.
