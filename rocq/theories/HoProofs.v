(** Proofs for C215: the evaluator follows the rules for procedures as values. *)
From Coq Require Import String Lia.
From Verif Require Import Base NumModel NumSpec NumProperties ParseModel ParseSpec PrintModel ParseProperties EnvModel EvalModel EvalMono
  ApiModel LangSpec LangProofs LangProofs2 HoSpec HoText.
From Verif Require EnvProofs.
Local Open Scope string_scope.
Local Open Scope Z_scope.
Local Open Scope list_scope.

Lemma Forall2_impl {A B} (Q R : A -> B -> Prop) l m : (forall x y, Q x y -> R x y) -> Forall2 Q l m -> Forall2 R l m.
Proof. intros H F. induction F; constructor; auto. Qed.
Section Sim.
Variable prim : list Z -> list val -> pres.
Variable P : list hfn.
Variable nm : list Z -> Prop.
(* names not bound before the program is loaded *)
Variable free : list Z -> Prop.
Hypothesis HN : numeric prim.
Hypothesis NM : forall x, nm x -> name x.
Hypothesis WP : Forall (hwf_fn nm) P.
Notation eval := (eval prim).
Notation step := (step prim).
Notation hwf := (hwf nm).

Definition keys : list (list Z) := [bs "define"; bs "lambda"; bs "let"; bs "if"].
Record hbase (st : state) : Prop := {
  hb_cur : s_cur st = root;
  hb_frames : s_frames st <> [];
  hb_op : forall o, assoc (op_name o) (frame_at st 0) = Some (VFunc (op_name o) (op_arity o));
  hb_rel : forall r, assoc (rel_name r) (frame_at st 0) = Some (VFunc (rel_name r) (-2));
  hb_key : forall k v, In k keys -> assoc k (frame_at st 0) = Some v -> is_macro v = false;
  hb_nm : forall x v, nm x -> assoc x (frame_at st 0) = Some v -> is_macro v = false;
  hb_fn : forall d, In d P -> assoc (h_name d) (frame_at st 0) = None /\
    ob_lookup st root (h_name d) = Some (VProc (map VSym (h_params d)) false [hcode (h_body d)] g_env);
  hb_free : forall x, free x -> ~ In x (map h_name P) -> env_search st g_env x = None }.
Lemma hbase_same L a b : (0 < L)%nat -> same L a b -> hbase a -> hbase b.
Proof.
  intros L0 S B. pose proof (same_frame _ _ _ 0 S L0) as F. destruct S as (_ & LA & LB & M & C & _). destruct B.
  constructor; try (rewrite ?F; assumption).
  - congruence.
  - intros E. rewrite E in LB. destruct (s_frames a); cbn in *; [congruence|lia].
  - intros d I. destruct (hb_fn0 d I) as (X & Y). split; [now rewrite F|]. unfold ob_lookup, mod_at in *. now rewrite M.
  - intros x U V. specialize (hb_free0 x U V). unfold env_search, env_exist, search_entry, mod_search, mod_find, ob_lookup, mod_at in *.
    cbn [e_chain e_mod g_env firstn search_chain] in *. rewrite F, M, C.
    assert (UL : forall l, uses_lookup b l x = uses_lookup a l x) by (induction l; cbn; [reflexivity|]; unfold ob_lookup, mod_at; rewrite M; now rewrite IHl).
    now rewrite UL.
Qed.
Lemma hbase_len st : hbase st -> (0 < length (s_frames st))%nat.
Proof. intros B. pose proof (hb_frames _ B). destruct (s_frames st); cbn; [congruence|lia]. Qed.
Lemma hbase_ext a b : ext a b -> hbase a -> hbase b.
Proof. intros E B. apply (hbase_same _ _ _) with (2 := E); auto. now apply hbase_len. Qed.

(** ** Values: a procedure holds the chain of frames that binds what it can see.
    [D]: the frames such chains may use. *)
Inductive vrel (D : nat -> Prop) (st : state) : hval -> val -> Prop :=
| vr_int z : small z -> vrel D st (HI z) (VInt z)
| vr_clo ps b r pe : Forall nm ps -> NoDup ps -> hwf b -> erel D st r pe -> vrel D st (HClo ps b r) (VProc (map VSym ps) false [hcode b] pe)
with erel (D : nat -> Prop) (st : state) : list (list Z * hval) -> env -> Prop :=
| er_intro (W : list Z -> val) r e : e_mod e = None -> Forall (fun i => D i \/ i = 0%nat) (e_chain e) ->
    (forall x, option_map snd (search_chain st (e_chain e) x) =
       match hlook r x with Some _ => Some (W x) | None => assoc x (frame_at st 0) end) ->
    (forall x v, hlook r x = Some v -> nm x) ->
    (forall x v, hlook r x = Some v -> vrel D st v (W x)) -> erel D st r e.
Scheme vrel_min := Minimality for vrel Sort Prop with erel_min := Minimality for erel Sort Prop.
Combined Scheme vrel_erel_min from vrel_min, erel_min.

Lemma chain_frames (D : nat -> Prop) a b c x : (forall i, D i -> frame_at b i = frame_at a i) -> Forall D c -> search_chain b c x = search_chain a c x.
Proof. intros F C. induction C as [|i c I _ IH]; cbn [search_chain]; [reflexivity|]. now rewrite (F i I), IH. Qed.
Lemma rel_keep (D E : nat -> Prop) a b : (forall i, D i -> E i) -> (forall i, D i \/ i = 0%nat -> frame_at b i = frame_at a i) ->
  (forall v w, vrel D a v w -> vrel E b v w) /\ (forall r e, erel D a r e -> erel E b r e).
Proof.
  intros DE F. apply vrel_erel_min; intros.
  - now constructor.
  - now constructor.
  - apply er_intro with W; auto.
    + eapply Forall_impl; [|eassumption]. intros i [I|I]; auto.
    + intros x. rewrite (chain_frames (fun i => D i \/ i = 0%nat) a b), (F 0%nat) by (auto; now right). auto.
Qed.
Lemma erel_keep (D E : nat -> Prop) a b r e : (forall i, D i -> E i) -> (forall i, D i \/ i = 0%nat -> frame_at b i = frame_at a i) ->
  erel D a r e -> erel E b r e.
Proof. intros A B. now apply rel_keep. Qed.
Lemma vrel_keep (D E : nat -> Prop) a b v w : (forall i, D i -> E i) -> (forall i, D i \/ i = 0%nat -> frame_at b i = frame_at a i) ->
  vrel D a v w -> vrel E b v w.
Proof. intros A B. now apply rel_keep. Qed.
Definition all (st : state) : nat -> Prop := fun i => (i < length (s_frames st))%nat.
Definition but (k : nat) (st : state) : nat -> Prop := fun i => (i < length (s_frames st))%nat /\ i <> k.

Lemma erel_find D st r e x : erel D st r e -> hlook r x = None ->
  option_map snd (search_chain st (e_chain e) x) = assoc x (frame_at st 0).
Proof. intros R N. inversion R as [W ? ? M C F Nn V]; subst. rewrite F. now rewrite N. Qed.
Lemma erel_mod D st r e : erel D st r e -> e_mod e = None.
Proof. now inversion 1. Qed.
Lemma erel_names D st r e x : erel D st r e -> ~ name x -> hlook r x = None.
Proof. intros R N. inversion R; subst. destruct (hlook r x) eqn:E; [|reflexivity]. elim N. eauto. Qed.
Lemma h_search_none D st r e x v : erel D st r e -> hlook r x = None -> env_exist st e x = Some v -> assoc x (frame_at st 0) = Some v.
Proof. intros R N E. apply exist_search in E. rewrite (erel_find _ _ _ _ _ R N) in E. congruence. Qed.
Lemma h_plain D st e r x : hbase st -> erel D st r e -> hlook r x = None ->
  (forall v, assoc x (frame_at st 0) = Some v -> is_macro v = false) ->
  forall v, head_value st e x = Some v -> is_macro v = false.
Proof.
  intros B O N K v. unfold head_value. destruct (env_exist st e x) as [w|] eqn:E.
  - intros [= <-]. apply K. eapply h_search_none; eauto.
  - rewrite (hb_cur _ B). cbn [Nat.eqb root]. destruct (assoc x (frame_at st 0)) as [w|] eqn:A; [|discriminate].
    rewrite (K w eq_refl). discriminate.
Qed.
Lemma h_found D st e r x v : hbase st -> erel D st r e -> hlook r x = None -> assoc x (frame_at st 0) = Some v ->
  is_macro v = false -> (head_value st e x = Some v \/ head_value st e x = None) /\ env_search st e x = Some v.
Proof.
  intros B O N A M. pose proof (erel_find _ _ _ _ _ O N) as F. rewrite A in F. split.
  - unfold head_value. destruct (env_exist st e x) as [w|] eqn:E.
    + left. pose proof (h_search_none _ _ _ _ _ _ O N E). congruence.
    + right. rewrite (hb_cur _ B). cbn [Nat.eqb root]. now rewrite A, M.
  - unfold env_search. destruct (env_exist st e x) as [w|] eqn:E.
    + pose proof (h_search_none _ _ _ _ _ _ O N E). congruence.
    + unfold search_entry. destruct (search_chain st (e_chain e) x) as [[i w]|]; cbn in F; [congruence|discriminate].
Qed.
Lemma h_local D st e r x v : hbase st -> erel D st r e -> hlook r x = Some v ->
  exists w, vrel D st v w /\ (head_value st e x = Some w \/ head_value st e x = None) /\ env_search st e x = Some w.
Proof.
  intros B O L. inversion O as [W ? ? M C F Nn V]; subst. exists (W x). split; [eauto|].
  pose proof (F x) as Fx. rewrite L in Fx. split.
  - unfold head_value. destruct (env_exist st e x) as [w|] eqn:E.
    + left. apply exist_search in E. congruence.
    + right. rewrite (hb_cur _ B). cbn [Nat.eqb root]. destruct (assoc x (frame_at st 0)) as [w|] eqn:A; [|reflexivity].
      now rewrite (hb_nm _ B x w (Nn _ _ L) A).
  - unfold env_search. destruct (env_exist st e x) as [w|] eqn:E.
    + apply exist_search in E. congruence.
    + unfold search_entry. destruct (search_chain st (e_chain e) x) as [[i w]|]; cbn in Fx; [congruence|discriminate].
Qed.
Lemma h_fn D st e r d : hbase st -> erel D st r e -> In d P -> hlook r (h_name d) = None ->
  let v := VProc (map VSym (h_params d)) false [hcode (h_body d)] g_env in
  head_value st e (h_name d) = None /\ env_search st e (h_name d) = Some v.
Proof.
  intros B O I N v. destruct (hb_fn _ B d I) as (A & Ob). pose proof (erel_find _ _ _ _ _ O N) as F. rewrite A in F.
  assert (X : env_exist st e (h_name d) = None).
  { destruct (env_exist st e (h_name d)) as [w|] eqn:E; [|reflexivity]. pose proof (h_search_none _ _ _ _ _ _ O N E). congruence. }
  split.
  - unfold head_value. rewrite X, (hb_cur _ B). cbn [Nat.eqb root]. now rewrite A.
  - unfold env_search. rewrite X. unfold search_entry. destruct (search_chain st (e_chain e) (h_name d)) as [[? ?]|]; [discriminate F|].
    rewrite (erel_mod _ _ _ _ O), (hb_cur _ B). unfold mod_search, mod_find. now rewrite Ob.
Qed.
Lemma erel_global D st : erel D st [] g_env.
Proof.
  apply er_intro with (W := fun _ => VNil); try discriminate.
  - reflexivity.
  - constructor; [now right|constructor].
  - intros x. cbn [g_env e_chain search_chain hlook]. now destruct (assoc x (frame_at st 0)).
Qed.

(** ** Evaluation *)
Definition runs (ce : env) (x : val) (st : state) (w : val) (st' : state) : Prop :=
  exists N, forall n, (N <= n)%nat -> eval n ce x st = Ret w st'.
Definition hevals (r : list (list Z * hval)) (e : hexp) (v : hval) : Prop :=
  forall st ce (D : nat -> Prop), hbase st -> (forall i, D i -> all st i) -> erel D st r ce ->
    exists st' w, ext st st' /\ vrel (fun i => D i \/ (length (s_frames st) <= i < length (s_frames st'))%nat) st' v w /\ runs ce (hcode e) st w st'.
Lemma ext_frames a b i : ext a b -> (i < length (s_frames a))%nat -> frame_at b i = frame_at a i.
Proof. intros E H. now apply (same_frame _ _ _ _ E). Qed.
Lemma ext_keep (D : nat -> Prop) a b : hbase a -> ext a b -> (forall i, D i -> all a i) -> forall i, D i \/ i = 0%nat -> frame_at b i = frame_at a i.
Proof. intros B E H i [I| ->]; apply ext_frames; auto; [now apply H|now apply hbase_len]. Qed.
Lemma ext_erel (D : nat -> Prop) a b r e : hbase a -> ext a b -> (forall i, D i -> all a i) -> erel D a r e -> erel D b r e.
Proof. intros B E H. apply erel_keep; auto. now apply ext_keep. Qed.
Lemma ext_all (D : nat -> Prop) a b : ext a b -> (forall i, D i -> all a i) -> forall i, D i -> all b i.
Proof. intros E H i I. apply same_length in E. specialize (H i I). unfold all in *. lia. Qed.
Lemma runs_step ce x st w st' (y : nat -> EM val) : (forall n, eval (S n) ce x st = y n st) -> (exists N, forall n, (N <= n)%nat -> y n st = Ret w st') ->
  runs ce x st w st'.
Proof. intros E (N & H). exists (S N). intros [|n] Hn; [lia|]. rewrite E. apply H. lia. Qed.

Lemma hevals_two r a b x y st ce (D : nat -> Prop) : hevals r a (HI x) -> hevals r b (HI y) -> hbase st -> (forall i, D i -> all st i) -> erel D st r ce ->
  exists st' N, ext st st' /\ forall n, (N <= n)%nat -> eval_args (eval n) ce [hcode a; hcode b] st = Ret [VInt x; VInt y] st'.
Proof.
  intros Ha Hb B HD O. destruct (Ha st ce D B HD O) as (s1 & w1 & E1 & V1 & N1 & R1). inversion V1; subst.
  destruct (Hb s1 ce D (hbase_ext _ _ E1 B) (ext_all _ _ _ E1 HD) (ext_erel _ _ _ _ _ B E1 HD O)) as (s2 & w2 & E2 & V2 & N2 & R2). inversion V2; subst.
  exists s2, (N1 + N2)%nat. split; [now apply ext_trans with s1|]. intros n Hn. cbn [eval_args].
  rewrite (ret_bind _ _ _ _ _ (R1 n ltac:(lia))). unfold ebind at 1. unfold ebind at 1. rewrite (R2 n ltac:(lia)). reflexivity.
Qed.
Lemma smallness r a x st ce (D : nat -> Prop) : hevals r a (HI x) -> hbase st -> (forall i, D i -> all st i) -> erel D st r ce -> small x.
Proof. intros Ha B HD O. destruct (Ha st ce D B HD O) as (s1 & w1 & E1 & V1 & _). now inversion V1. Qed.

Lemma hevals_bin r o a b x y : hevals r a (HI x) -> hevals r b (HI y) -> (divides o -> y <> 0) -> small (arith o x y) ->
  hevals r (HBin o a b) (HI (arith o x y)).
Proof.
  intros Ha Hb Dv Sm st ce D B HD O. destruct (hevals_two r a b x y st ce D Ha Hb B HD O) as (s2 & N & E2 & R).
  exists s2, (VInt (arith o x y)). split; [exact E2|]. split; [now constructor|].
  assert (NL : hlook r (op_name o) = None) by (eapply erel_names; eauto; apply not_op).
  destruct (h_found D st ce r (op_name o) _ B O NL (hb_op _ B o) eq_refl) as (H1 & H2).
  apply (runs_step ce _ st _ _ (fun n => eval n ce (VList [VFunc (op_name o) (op_arity o); hcode a; hcode b] false))).
  { intros n. rewrite eval_S. apply step_call; auto. apply op_form. }
  exists (S N). intros [|n] Hn; [lia|]. rewrite eval_S, step_op, (ret_bind _ _ _ _ _ (R n ltac:(lia))), call_op.
  assert (Sx := smallness r a x st ce D Ha B HD O). assert (Sy := smallness r b y st ce D Hb B HD O).
  rewrite (n_op _ HN _ _ _ _ (num_op_ok o x y Sx Sy Dv Sm)). now rewrite emit_nil.
Qed.
Lemma hevals_if r c a b t f x y v : hevals r a (HI x) -> hevals r b (HI y) -> hevals r (if holds c x y then t else f) v ->
  hevals r (HIf c a b t f) v.
Proof.
  intros Ha Hb Hr st ce D B HD O. destruct (hevals_two r a b x y st ce D Ha Hb B HD O) as (s2 & N & E2 & R).
  assert (O2 := ext_erel _ _ _ _ _ B E2 HD O). assert (B2 := hbase_ext _ _ E2 B).
  destruct (Hr s2 ce D B2 (ext_all _ _ _ E2 HD) O2) as (s3 & w & E3 & V3 & N3 & R3).
  exists s3, w. split; [now apply ext_trans with s2|]. split.
  { eapply vrel_keep; [| |exact V3]; [|auto]. cbn. intros i [I|I]; [now left|right]. apply same_length in E2. lia. }
  assert (NI : hlook r (bs "if") = None) by (eapply erel_names; eauto; apply not_key; apply in_map; cbn; tauto).
  assert (PI : forall u, head_value st ce (bs "if") = Some u -> is_macro u = false).
  { apply (h_plain D st ce r); auto. intros u. apply (hb_key _ B). cbn. tauto. }
  assert (NL : hlook r (rel_name c) = None) by (eapply erel_names; eauto; apply not_rel).
  destruct (h_found D st ce r (rel_name c) _ B O NL (hb_rel _ B c) eq_refl) as (H1 & H2).
  exists (S (S (S (N + N3)))). intros [|n] Hn; [lia|]. cbn [hcode]. rewrite eval_S. unfold sym.
  rewrite (step_form prim n n ce (bs "if") FIf) by auto. cbn [special]. unfold do_if.
  assert (T : eval n ce (VList [VSym (rel_name c); hcode a; hcode b] false) st = Ret (VBool (holds c x y)) s2).
  { destruct n as [|n]; [lia|]. rewrite eval_S, (step_call prim n n ce (rel_name c) _ _ _ (rel_form c) H1 H2 eq_refl).
    destruct n as [|n]; [lia|]. rewrite eval_S, step_rel, (ret_bind _ _ _ _ _ (R n ltac:(lia))), call_rel.
    rewrite (n_rel _ HN _ _ _ _ (num_rel_ok c x y)). now rewrite emit_nil. }
  rewrite (ret_bind _ _ _ _ _ T). cbn [truthy]. specialize (R3 n ltac:(lia)). destruct (holds c x y); exact R3.
Qed.

(** *** binding and entering *)
Fixpoint wlook (l : list (list Z * val)) (x : list Z) : option val :=
  match l with [] => None | (y, v) :: l' => if list_eq_dec Z.eq_dec y x then Some v else wlook l' x end.
Lemma wlook_none ps ws x : ~ In x ps -> wlook (combine ps ws) x = None.
Proof.
  revert ws. induction ps as [|p ps IH]; intros [|w ws] N; cbn; auto. destruct (list_eq_dec Z.eq_dec p x) as [->|_]; [now elim N; left|].
  apply IH. intros I. apply N. now right.
Qed.
Definition more (D : nat -> Prop) (a b : state) : nat -> Prop := fun i => D i \/ (length (s_frames a) <= i < length (s_frames b))%nat.
Definition hbinds (r : list (list Z * hval)) (es : list hexp) (vs : list hval) : Prop :=
  forall ps st ce fe K c (D : nat -> Prop), length ps = length es -> NoDup ps -> hbase st -> (forall i, D i -> but K st i) -> erel D st r ce ->
    e_chain fe = K :: c -> (0 < K < length (s_frames st))%nat ->
    exists N st' ws, same K st st' /\ (forall i, (i < length (s_frames st))%nat -> i <> K -> frame_at st' i = frame_at st i) /\
      Forall2 (vrel (more D st st') st') vs ws /\
      (forall y, assoc y (frame_at st' K) = match wlook (combine ps ws) y with Some w => Some w | None => assoc y (frame_at st K) end) /\
      forall n, (N <= n)%nat -> bind_loop (eval n) ce fe false (map VSym ps) (map hcode es) st = Ret true st'.
Lemma hbinds_nil r : hbinds r [] [].
Proof.
  intros [|] st ce fe K c D Hl ND0 B HD O E HK; [|discriminate]. exists 0%nat, st, []. split; [apply same_refl; lia|].
  split; [auto|]. split; [constructor|]. split; [reflexivity|]. reflexivity.
Qed.
Lemma insert_other st fe K c p w : e_chain fe = K :: c -> (K < length (s_frames st))%nat -> forall st', insert fe p w st = Ret tt st' -> forall i, i <> K -> frame_at st' i = frame_at st i.
Proof.
  intros E HK st'. unfold insert, modify, env_insert, search_entry. rewrite E. cbn [firstn search_chain].
  destruct (assoc p (frame_at st K)); intros [= <-] i Ni; unfold frame_at, set_frame; cbn [s_frames];
    rewrite EnvProofs.nth_upd by exact HK; destruct (Nat.eqb_spec K i); congruence.
Qed.
Lemma hbinds_cons r a l v vs : hevals r a v -> hbinds r l vs -> hbinds r (a :: l) (v :: vs).
Proof.
  intros Ha Hl [|p ps] st ce fe K c D H ND0 B HD O E HK; [discriminate|].
  assert (HD0 : forall i, D i -> all st i) by (intros i I; apply (HD i I)).
  destruct (Ha st ce D B HD0 O) as (s1 & w & E1 & V1 & N1 & R1).
  pose proof (same_length _ _ _ E1) as LE1.
  destruct (insert_ok K s1 fe K c p w E ltac:(lia)) as (s2 & I2 & S2 & LE2 & F2).
  pose proof (insert_other s1 fe K c p w E ltac:(lia) s2 I2) as X2.
  assert (S02 : same K st s2). { apply same_trans with s1; [apply ext_same; [lia|exact E1]|exact S2]. }
  assert (FR : forall i, (i < length (s_frames st))%nat -> i <> K -> frame_at s2 i = frame_at st i).
  { intros i Hi Ni. rewrite X2 by assumption. now apply ext_frames. }
  inversion ND0 as [|? ? NI ND1]; subst.
  assert (B2 : hbase s2) by (apply (hbase_same K st); auto; lia).
  destruct (Hl ps s2 ce fe K c D) as (N3 & s3 & ws & S3 & FR3 & V3 & F3 & H3); auto.
  { intros i I. destruct (HD i I). unfold but in *. lia. }
  { apply (erel_keep D D st); auto. intros i [I| ->]; apply FR; try (apply (HD i I)); lia. }
  { lia. }
  pose proof (same_length _ _ _ S3) as LE3.
  exists (N1 + N3)%nat, s3, (w :: ws). split; [now apply same_trans with s2|]. split; [|split; [|split]].
  - intros i Hi Ni. rewrite FR3 by lia. now apply FR.
  - constructor.
    2:{ refine (Forall2_impl _ _ _ _ _ V3). intros u u'. apply vrel_keep; [|auto]. unfold more. intros i [I|I]; [now left|right; lia]. }
    refine (vrel_keep _ _ _ _ _ _ _ _ V1).
    + cbn. unfold more. intros i [I|I]; [now left|right; lia].
    + cbn. intros i [[I|I]| ->]; rewrite FR3; try rewrite X2; auto; try lia; destruct (HD i I); lia.
  - intros y. rewrite F3. cbn [combine wlook]. rewrite F2, beq_look. destruct (list_eq_dec Z.eq_dec p y) as [->|Ny].
    + now rewrite wlook_none.
    + rewrite (ext_frames st s1 K E1) by lia. reflexivity.
  - intros n Hn. cbn [map bind_loop is_sym]. rewrite (ret_bind _ _ _ _ _ (R1 n ltac:(lia))).
    rewrite (ret_bind _ _ _ _ _ I2). apply H3. lia.
Qed.
Lemma hlook_app {A} (a b : list (list Z * A)) x : hlook (a ++ b) x = match hlook a x with Some v => Some v | None => hlook b x end.
Proof. induction a as [|[y v] a IH]; cbn; [reflexivity|]. destruct (list_eq_dec Z.eq_dec y x); auto. Qed.
Lemma look_both (R : hval -> val -> Prop) ps vs ws x : Forall2 R vs ws ->
  match hlook (combine ps vs) x with
  | Some v => In x ps /\ exists w, wlook (combine ps ws) x = Some w /\ R v w
  | None => wlook (combine ps ws) x = None
  end.
Proof.
  intros F. revert ps. induction F as [|v w vs ws Rv _ IH]; intros [|p ps]; cbn; auto.
  destruct (list_eq_dec Z.eq_dec p x) as [->|Np]; [split; eauto|]. specialize (IH ps).
  destruct (hlook (combine ps vs) x); auto. destruct IH as (I & R'). split; auto.
Qed.
Lemma henter pe r0 r ps vs es body v st ce (D : nat -> Prop) : hbase st -> (forall i, D i -> all st i) -> erel D st r ce -> erel D st r0 pe ->
  length ps = length es -> NoDup ps -> Forall nm ps -> hbinds r es vs -> hevals (combine ps vs ++ r0) body v ->
  exists N st' w, ext st st' /\ vrel (more D st st') st' v w /\
    forall n, (N <= n)%nat -> apply_proc (eval n) ce (map VSym ps) false [hcode body] pe (map hcode es) st = Ret w st'.
Proof.
  intros B HD O Op Hl ND0 Nm Hb Hbody. destruct (alloc_ok st pe) as (A & E1 & L1 & Fr).
  set (st1 := mkState (s_frames st ++ [[]]) (s_mods st) (s_cur st) (s_proms st) (s_dyn st)) in *.
  set (fe := mkEnv (length (s_frames st) :: e_chain pe) (e_mod pe)) in *.
  set (K := length (s_frames st)) in *. pose proof (hbase_len st B) as LK. fold K in LK.
  assert (B1 : hbase st1) by (now apply (hbase_ext st)).
  destruct (Hb ps st1 ce fe K (e_chain pe) D Hl ND0 B1) as (N2 & s2 & ws & S2 & FR & V2 & F2 & H2); auto.
  { intros i I. specialize (HD i I). unfold all, but in *. lia. }
  { now apply (ext_erel D st). }
  { lia. }
  pose proof (same_length _ _ _ S2) as LE2.
  assert (S02 : ext st s2) by (apply same_trans with st1; auto).
  assert (B2 : hbase s2) by (now apply (hbase_ext st)).
  assert (FRS : forall i, (i < K)%nat -> frame_at s2 i = frame_at st i) by (intros i Hi; now apply ext_frames).
  set (D2 := more D st s2).
  assert (KD : ~ D K) by (intros I; specialize (HD K I); unfold all in HD; lia).
  assert (V2' : Forall2 (vrel D2 s2) vs ws).
  { refine (Forall2_impl _ _ _ _ _ V2). intros x y. apply vrel_keep; [|auto]. unfold D2, more. intros i [I|I]; [now left|right; lia]. }
  assert (Op2 : erel D2 s2 r0 pe).
  { refine (erel_keep D _ st _ _ _ _ _ Op).
    - intros i I. now left.
    - intros i [I| ->]; apply FRS; [apply (HD i I)|lia]. }
  destruct (Hbody s2 fe D2 B2) as (s3 & w & E3 & V3 & N3 & R3).
  { unfold D2, more, all. intros i [I|I]; [specialize (HD i I); unfold all in HD; lia|lia]. }
  { inversion Op2 as [W ? ? M C F Nn V]; subst.
    apply er_intro with (W := fun x => match wlook (combine ps ws) x with Some w => w | None => W x end).
    - exact M.
    - unfold fe. cbn [e_chain]. constructor; [left; right; lia|exact C].
    - intros x. unfold fe. cbn [e_chain search_chain]. rewrite F2, Fr, hlook_app.
      pose proof (look_both _ ps vs ws x V2') as LB. destruct (hlook (combine ps vs) x) as [u|].
      + destruct LB as (_ & w & -> & _). reflexivity.
      + rewrite LB. cbn [assoc]. rewrite F. reflexivity.
    - intros x u. rewrite hlook_app. pose proof (look_both _ ps vs ws x V2') as LB. destruct (hlook (combine ps vs) x) as [u'|].
      + intros _. rewrite Forall_forall in Nm. now apply Nm.
      + apply Nn.
    - intros x u. rewrite hlook_app. pose proof (look_both _ ps vs ws x V2') as LB. destruct (hlook (combine ps vs) x) as [u'|].
      + intros [= <-]. destruct LB as (_ & w & -> & Vw). exact Vw.
      + rewrite LB. apply V. }
  exists (N2 + N3)%nat, s3, w. split; [apply same_trans with s2; [exact S02|apply ext_same; [lia|exact E3]]|]. split.
  { pose proof (same_length _ _ _ E3). refine (vrel_keep _ _ _ _ _ _ _ _ V3); [|auto]. unfold D2, more. cbn. intros i [[I|I]|I]; [now left|right; lia|right; lia]. }
  intros n Hn. unfold apply_proc. rewrite (ret_bind _ _ _ _ _ A). cbn [has_rest andb]. fold fe. cbn zeta.
  rewrite (ret_bind _ _ _ _ _ (H2 n ltac:(lia))). cbn [eval_body]. apply R3. lia.
Qed.

Lemma more_trans (D : nat -> Prop) a b c i : ext a b -> ext b c -> more (more D a b) b c i -> more D a c i.
Proof. intros X Y. apply same_length in X, Y. unfold more. intros [[I|I]|I]; [now left|right; lia|right; lia]. Qed.
Lemma more_all (D : nat -> Prop) a b i : ext a b -> (forall i, D i -> all a i) -> more D a b i -> all b i.
Proof. intros X H. apply same_length in X. unfold more, all. intros [I|I]; [specialize (H i I); unfold all in H; lia|lia]. Qed.

Lemma hevals_let r x a b w v : nm x -> hevals r a w -> hevals ((x, w) :: r) b v -> hevals r (HLet x a b) v.
Proof.
  intros Nx Ha Hb st ce D B HD O.
  assert (NL : hlook r (bs "let") = None) by (eapply erel_names; eauto; apply not_key; apply in_map; cbn; tauto).
  assert (NLa : hlook r (bs "lambda") = None) by (eapply erel_names; eauto; apply not_key; apply in_map; cbn; tauto).
  assert (PL : forall u, head_value st ce (bs "let") = Some u -> is_macro u = false).
  { apply (h_plain D st ce r); auto. intros u. apply (hb_key _ B). cbn. tauto. }
  assert (PLa : forall u, head_value st ce (bs "lambda") = Some u -> is_macro u = false).
  { apply (h_plain D st ce r); auto. intros u. apply (hb_key _ B). cbn. tauto. }
  destruct (henter ce r r [x] [w] [a] b v st ce D B HD O O eq_refl) as (N & s1 & u & E1 & V1 & R1); auto.
  { repeat constructor. intros []. }
  { apply (hbinds_cons r a [] w []); auto. apply hbinds_nil. }
  exists s1, u. split; [exact E1|]. split; [exact V1|]. exists (4 + N)%nat. intros n Hn.
  destruct n as [|n]; [lia|]. cbn [hcode]. rewrite eval_S. unfold sym at 1. rewrite (step_form prim n n ce (bs "let") FLet _ _ _ PL eq_refl).
  change (eval n ce (VList [VList [sym "lambda"; VList [VSym x] false; hcode b] false; hcode a] false) st = Ret u s1).
  destruct n as [|n]; [lia|]. rewrite eval_S. cbn [EvalModel.step]. destruct n as [|n]; [lia|].
  assert (LA : eval (S n) ce (VList [sym "lambda"; VList [VSym x] false; hcode b] false) st = Ret (VProc [VSym x] false [hcode b] ce) st).
  { rewrite eval_S. unfold sym. rewrite (step_form prim n n ce (bs "lambda") FLambda) by auto. reflexivity. }
  rewrite (ret_bind _ _ _ _ _ LA). change (eval (S n) ce (VList [VProc [VSym x] false [hcode b] ce; hcode a] false) st = Ret u s1). rewrite eval_S.
  exact (R1 n ltac:(lia)).
Qed.
Lemma hevals_lam r ps b : Forall nm ps -> NoDup ps -> hwf b -> hevals r (HLam ps b) (HClo ps b r).
Proof.
  intros Np Nd Wb st ce D B HD O. exists st, (VProc (map VSym ps) false [hcode b] ce). split; [apply ext_refl|]. split.
  { apply vr_clo; auto. refine (erel_keep D _ st st _ _ _ _ O); [now left|auto]. }
  assert (NLa : hlook r (bs "lambda") = None) by (eapply erel_names; eauto; apply not_key; apply in_map; cbn; tauto).
  assert (PLa : forall u, head_value st ce (bs "lambda") = Some u -> is_macro u = false).
  { apply (h_plain D st ce r); auto. intros u. apply (hb_key _ B). cbn. tauto. }
  exists 1%nat. intros [|n] Hn; [lia|]. cbn [hcode]. rewrite eval_S. unfold sym at 1. rewrite (step_form prim n n ce (bs "lambda") FLambda) by auto.
  cbn [special do_lambda]. now destruct ps.
Qed.
Lemma h_head D st e r x w : hbase st -> erel D st r e -> nm x -> env_search st e x = Some w ->
  head_value st e x = Some w \/ head_value st e x = None.
Proof.
  intros B O Nx S. unfold env_search in S. unfold head_value. destruct (env_exist st e x) as [u|]; [left; congruence|right].
  rewrite (hb_cur _ B). cbn [Nat.eqb root]. destruct (assoc x (frame_at st 0)) as [u|] eqn:A; [|reflexivity]. now rewrite (hb_nm _ B x u Nx A).
Qed.
Lemma hevals_var r x v : nm x -> hlook r x = Some v -> hevals r (HVar x) v.
Proof.
  intros Nx L st ce D B HD O. destruct (h_local D st ce r x v B O L) as (w & V & _ & S). exists st, w. split; [apply ext_refl|]. split.
  { refine (vrel_keep D _ st st _ _ _ _ V); [now left|auto]. }
  exists 1%nat. intros [|n] Hn; [lia|]. cbn [hcode]. rewrite eval_S, step_var by auto. unfold lookup, ebind, gets. now rewrite S.
Qed.
Lemma hevals_global r d : In d P -> hlook r (h_name d) = None -> hevals r (HVar (h_name d)) (HClo (h_params d) (h_body d) []).
Proof.
  intros I L st ce D B HD O. destruct (h_fn D st ce r d B O I L) as (_ & S).
  assert (W : hwf_fn nm d) by (rewrite Forall_forall in WP; now apply WP). destruct W as (Nf & Np & Nd & Wb).
  exists st, (VProc (map VSym (h_params d)) false [hcode (h_body d)] g_env). split; [apply ext_refl|]. split.
  { apply vr_clo; auto. apply erel_global. }
  exists 1%nat. intros [|n] Hn; [lia|]. cbn [hcode]. rewrite eval_S, step_var by auto. unfold lookup, ebind, gets. now rewrite S.
Qed.
Lemma hevals_app r f args ps b r' vs v : hwf f -> callee f -> hevals r f (HClo ps b r') -> hbinds r args vs -> length vs = length ps ->
  length args = length vs -> hevals (combine ps vs ++ r') b v -> hevals r (HApp f args) v.
Proof.
  intros Wf Cf Hf Hargs Lv La Hb st ce D B HD O.
  destruct (Hf st ce D B HD O) as (s1 & w & E1 & V1 & N1 & R1). inversion V1 as [|? ? ? pe Np Nd Wb Op]; subst.
  assert (B1 := hbase_ext _ _ E1 B).
  assert (O1 : erel (more D st s1) s1 r ce).
  { refine (erel_keep D _ st s1 _ _ _ _ O); [now left|now apply ext_keep]. }
  destruct (henter pe r' r ps vs args b v s1 ce (more D st s1) B1) as (N2 & s2 & u & E2 & V2 & R2); auto.
  { intros i. now apply more_all. }
  { congruence. }
  exists s2, u. split; [now apply ext_trans with s1|]. split.
  { refine (vrel_keep _ _ _ _ _ _ _ _ V2); [|auto]. intros i. now apply more_trans. }
  exists (3 + N1 + N2)%nat. intros n Hn. destruct n as [|n]; [lia|]. cbn [hcode].
  assert (G : forall m, (1 + N2 <= m)%nat -> eval m ce (VList (VProc (map VSym ps) false [hcode b] pe :: map hcode args) false) s1 = Ret u s2).
  { intros [|m] Hm; [lia|]. rewrite eval_S. exact (R2 m ltac:(lia)). }
  assert (Hd : (exists x, f = HVar x) \/ exists h t d, hcode f = VList (h :: t) d).
  { destruct f; try contradiction; cbn [hcode]; eauto. }
  destruct Hd as [(x & ->)|(h & t & d & Hc)].
  - inversion Wf as [|? Nx| | | | |]; subst. cbn [hcode] in *. destruct n as [|n]; [lia|].
    specialize (R1 (S n) ltac:(lia)). rewrite eval_S, step_var in R1 by auto. unfold lookup, ebind, gets in R1.
    destruct (env_search st ce x) as [w|] eqn:Sx.
    2:{ unfold err, throw in R1. destruct (find_handler _ _ _) in R1; discriminate R1. }
    unfold ret in R1. injection R1 as -> ->.
    rewrite eval_S, (step_call prim (S n) (S n) ce x _ _ _ (name_form _ (NM x Nx)) (h_head _ _ _ _ _ _ B O Nx Sx) Sx eq_refl). apply G. lia.
  - rewrite eval_S, Hc. cbn [EvalModel.step]. rewrite <- Hc, (ret_bind _ _ _ _ _ (R1 n ltac:(lia))).
    replace (match map hcode args with [] => false | _ :: _ => false end) with false by (now destruct (map hcode args)). apply G. lia.
Qed.
Scheme hev_min := Minimality for hev Sort Prop with hevs_min := Minimality for hevs Sort Prop.
Combined Scheme hev_hevs_min from hev_min, hevs_min.
Lemma hevs_length r es vs : hevs P r es vs -> length es = length vs.
Proof. induction 1; cbn; auto. Qed.
(* what the bodies of procedure values satisfy *)
Inductive vwf : hval -> Prop :=
| vwf_int z : vwf (HI z)
| vwf_clo ps b r : hwf b -> rwf r -> vwf (HClo ps b r)
with rwf : list (list Z * hval) -> Prop :=
| rwf_nil : rwf []
| rwf_cons x v r : vwf v -> rwf r -> rwf ((x, v) :: r).
Lemma rwf_look r x v : rwf r -> hlook r x = Some v -> vwf v.
Proof. induction 1 as [|y u r V _ IH]; cbn; [discriminate|]. destruct (list_eq_dec Z.eq_dec y x); [intros [= <-]; auto|auto]. Qed.
Lemma rwf_app a b : rwf a -> rwf b -> rwf (a ++ b).
Proof. induction 1; cbn; auto. constructor; auto. Qed.
Lemma rwf_combine ps vs : Forall vwf vs -> rwf (combine ps vs).
Proof. intros F. revert ps. induction F; intros [|p ps]; cbn; constructor; auto. Qed.
Lemma hev_wf :
  (forall r e v, hev P r e v -> hwf e -> rwf r -> vwf v) /\
  (forall r es vs, hevs P r es vs -> Forall hwf es -> rwf r -> Forall vwf vs).
Proof.
  apply hev_hevs_min.
  - constructor.
  - intros r x v L _ R. eapply rwf_look; eauto.
  - intros r d L I _ R. rewrite Forall_forall in WP. destruct (WP d I) as (_ & _ & _ & W). constructor; [exact W|constructor].
  - constructor.
  - intros r c a b t f x y v _ _ _ _ _ IH W R. inversion W; subst. apply IH; auto. now destruct (holds c x y).
  - intros r x a b w v _ IHa _ IHb W R. inversion W; subst. apply IHb; auto. constructor; auto.
  - intros r ps b W R. inversion W; subst. now constructor.
  - intros r f args ps b r' vs v _ IHf _ IHs _ _ IHb W R. inversion W; subst.
    assert (V : vwf (HClo ps b r')) by auto. inversion V; subst. apply IHb; auto. apply rwf_app; auto. apply rwf_combine. auto.
  - constructor.
  - intros r a l v vs _ IHa _ IHl W R. inversion W; subst. constructor; auto.
Qed.
Theorem hfollows :
  (forall r e v, hev P r e v -> hwf e -> rwf r -> hevals r e v) /\
  (forall r es vs, hevs P r es vs -> Forall hwf es -> rwf r -> hbinds r es vs).
Proof.
  apply hev_hevs_min.
  - intros r z W _ st ce D B HD O. exists st, (VInt z). split; [apply ext_refl|]. split; [constructor; now inversion W|].
    exists 1%nat. intros [|n] Hn; [lia|]. reflexivity.
  - intros r x v L W _. inversion W; subst. now apply hevals_var.
  - intros r d L I W _. now apply hevals_global.
  - intros r o a b x y _ IHa _ IHb Dv Sm W R. inversion W; subst. apply hevals_bin; auto.
  - intros r c a b t f x y v _ IHa _ IHb _ IHr W R. inversion W; subst. apply (hevals_if r c a b t f x y); auto.
    apply IHr; auto. now destruct (holds c x y).
  - intros r x a b w v Ea IHa _ IHb W R. inversion W; subst. apply (hevals_let r x a b w v); auto. apply IHb; auto. constructor; auto.
    apply (proj1 hev_wf _ _ _ Ea); auto.
  - intros r ps b W R. inversion W; subst. now apply hevals_lam.
  - intros r f args ps b r' vs v Ef IHf Es IHs Lv _ IHb W R. inversion W; subst.
    assert (V : vwf (HClo ps b r')) by (apply (proj1 hev_wf _ _ _ Ef); auto). inversion V; subst.
    apply (hevals_app r f args ps b r' vs v); auto.
    + eapply hevs_length; eauto.
    + apply IHb; auto. apply rwf_app; auto. apply rwf_combine. apply (proj2 hev_wf _ _ _ Es); auto.
  - intros r _ _. apply hbinds_nil.
  - intros r a l v vs _ IHa _ IHl W R. inversion W; subst. apply hbinds_cons; auto.
Qed.
End Sim.
