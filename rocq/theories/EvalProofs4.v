(** Rules for dynamic-wind, continuations and catch. *)
From Coq Require Import String Lia Setoid Morphisms.
From Verif Require Import Base ParseModel PrintModel EnvModel EnvSpec EnvProofs EvalModel EvalMono EvalInv EvalInv2 EvalInv3 EvalSpec EvalProofs
  EvalProofs2 EvalProofs3.
Local Open Scope string_scope.
Local Open Scope list_scope.

Section Forms.
Variable prim : list Z -> list val -> pres.
Notation run := (runs prim).

Lemma lim_winds : lim (fun _ => gets (fun st => d_wind (s_dyn st))) == winds.
Proof. intros st o. unfold lim, gets, winds. split; [intros (n & <- & _); auto|intros ->; exists O; split; [auto|discriminate]]. Qed.
Lemma thunk_run e body pe : lim (fun n => call_thunk (eval prim n) (closure [] None body pe) e) == call_run prim e [] None body pe [].
Proof. unfold call_thunk. rewrite <- (lim_apply prim e [] None body pe []); [reflexivity|auto]. Qed.
Lemma mono_thunk f e : monotone (fun n => call_thunk (eval prim n) f e).
Proof. intros n n' L. apply m_thunk. now apply hev. Qed.
Lemma do_wind_run e bi pi bt pt bo po :
  lim (fun n => do_wind (eval prim n) e (closure [] None bi pi) (closure [] None bt pt) (closure [] None bo po)) ==
  wind_run (closure [] None bi pi) (closure [] None bo po)
    (call_run prim e [] None bi pi []) (call_run prim e [] None bt pt []) (call_run prim e [] None bo po []).
Proof.
  unfold do_wind, wind_run. cbn [closure map].
  change (VProc [] false bi pi) with (closure [] None bi pi). change (VProc [] false bt pt) with (closure [] None bt pt).
  change (VProc [] false bo po) with (closure [] None bo po). unfold winding.
  assert (M1 : forall r (old : list nat) (u : unit), monotone (fun n => ebind (modify (set_wind old)) (fun _ => ebind (call_thunk (eval prim n) (closure [] None bo po) e) (fun _ => ret (A:=val) r)))).
  { intros. apply mono_bind; [apply mono_const|intro]. apply mono_bind; [apply mono_thunk|intro; apply mono_const]. }
  assert (M2 : forall old : list nat, monotone (fun n => ebind (modify (push_wind (closure [] None bi pi) (closure [] None bo po))) (fun _ => ebind (call_thunk (eval prim n) (closure [] None bt pt) e) (fun r => ebind (modify (set_wind old)) (fun _ => ebind (call_thunk (eval prim n) (closure [] None bo po) e) (fun _ => ret r)))))).
  { intros. apply mono_bind; [apply mono_const|intro]. apply mono_bind; [apply mono_thunk|intro]. apply (M1 _ _ tt). }
  rewrite lim_bind; [|apply mono_thunk|intro; apply mono_bind; [apply mono_const|apply M2]].
  apply andthen_cong; [apply thunk_run|]. intros _.
  rewrite lim_bind; [|apply mono_const|apply M2]. apply andthen_cong; [apply lim_winds|]. intro old.
  rewrite lim_bind; [|apply mono_const|intro; apply mono_bind; [apply mono_thunk|intro; apply (M1 _ _ tt)]].
  apply andthen_cong; [apply lim_modify|]. intros _.
  rewrite lim_bind; [|apply mono_thunk|intro; apply (M1 _ _ tt)]. apply andthen_cong; [apply thunk_run|]. intro r.
  rewrite lim_bind; [|apply mono_const|intro; apply mono_bind; [apply mono_thunk|intro; apply mono_const]].
  apply andthen_cong; [apply lim_modify|]. intros _.
  rewrite lim_bind; [|apply mono_thunk|intro; apply mono_const]. apply andthen_cong; [apply thunk_run|]. intros _. apply lim_ret.
Qed.
Lemma mono_do_wind e a b c : monotone (fun n => do_wind (eval prim n) e a b c).
Proof. intros n n' L. apply m_wind. now apply hev. Qed.
Lemma runs_wind e i t o st oo : plain e "dynamic-wind" st ->
  (run e (form_ "dynamic-wind" [i; t; o]) st oo <->
   (iv <~ run e i ;; tv <~ run e t ;; ov <~ run e o ;; lim (fun n => do_wind (eval prim n) e iv tv ov)) st oo).
Proof.
  intro P. rewrite (runs_special prim e "dynamic-wind" FWind _ st oo P eq_refl). cbn [special].
  etransitivity; [apply lim_bind; [apply mono_eval|intro; apply mono_bind; [apply mono_eval|intro; apply mono_bind; [apply mono_eval|intro; apply mono_do_wind]]]|].
  refine (andthen_cong _ _ _ _ _ _ st oo); [reflexivity|]. intro iv.
  rewrite lim_bind; [|apply mono_eval|intro; apply mono_bind; [apply mono_eval|intro; apply mono_do_wind]]. apply andthen_cong; [reflexivity|]. intro tv.
  rewrite lim_bind; [|apply mono_eval|intro; apply mono_do_wind]. apply andthen_cong; [reflexivity|]. intro ov. reflexivity.
Qed.

(** ** continuations *)
Lemma mono_guard f : monotone (fun n => call_guard (eval prim n) f).
Proof. intros n n' L. apply m_guard. now apply hev. Qed.
Lemma lim_guard f : lim (fun n => call_guard (eval prim n) f) == guard_run prim f.
Proof.
  unfold call_guard, guard_run. destruct f; try apply lim_ret.
  rewrite lim_bind; [|intros n n' L; apply m_apply; now apply hev|intro; apply mono_const].
  apply andthen_cong; [|intros _; apply lim_ret]. intros st o. rewrite runs_step. reflexivity.
Qed.
Lemma mono_outs ids : monotone (fun n => run_outs (eval prim n) ids).
Proof. intros n n' L. apply m_outs. now apply hev. Qed.
Lemma mono_ins ids : monotone (fun n => run_ins (eval prim n) ids).
Proof. intros n n' L. apply m_ins. now apply hev. Qed.
Lemma lim_outs : forall ids, lim (fun n => run_outs (eval prim n) ids) == each_run (out_guard prim) ids.
Proof.
  induction ids as [|i ids IH]; [apply lim_ret|]. cbn [run_outs each_run]. intros st o. rewrite lim_gets.
  unfold out_guard at 1.
  etransitivity; [apply lim_bind; [destruct (guards_of _ _) as [[]|]; [apply mono_guard|apply mono_const]|intro; apply mono_outs]|].
  split; (intros [(u & s & H1 & H2)|(o1 & H1 & H2)]; [left; exists u, s|right; exists o1]; (split; [|solve [auto | now apply IH]]); revert H1).
  all: destruct (guards_of i (d_guards (s_dyn st))) as [[a b]|]; intro H1; solve [now apply lim_guard | now apply (lim_ret tt)].
Qed.
Lemma lim_ins : forall ids, lim (fun n => run_ins (eval prim n) ids) == each_run (in_guard prim) ids.
Proof.
  induction ids as [|i ids IH]; [apply lim_ret|]. cbn [run_ins each_run]. intros st o. rewrite lim_gets.
  set (g := guards_of i (d_guards (s_dyn st))).
  set (m := fun n => match g with Some (a, _) => call_guard (eval prim n) a | None => ret tt end).
  assert (MM : monotone m) by (unfold m; destruct g as [[]|]; [apply mono_guard|apply mono_const]).
  assert (LM : lim m == match g with Some (a, _) => guard_run prim a | None => returns tt end) by (unfold m; destruct g as [[]|]; [apply lim_guard|apply lim_ret]).
  transitivity ((_ <~ lim m ;; _ <~ effect (fun s => set_wind (i :: d_wind (s_dyn s)) s) ;; lim (fun n => run_ins (eval prim n) ids)) st o).
  { etransitivity; [apply (lim_bind m); [exact MM|intro; apply mono_bind; [apply mono_const|intro; apply mono_ins]]|].
    refine (andthen_cong _ _ _ _ _ _ st o); [reflexivity|]. intros _.
    rewrite lim_bind; [|apply mono_const|intro; apply mono_ins]. apply andthen_cong; [apply lim_modify|reflexivity]. }
  transitivity ((_ <~ (_ <~ lim m ;; effect (fun s => set_wind (i :: d_wind (s_dyn s)) s)) ;; each_run (in_guard prim) ids) st o).
  { etransitivity; [|symmetry; apply andthen_assoc]. refine (andthen_cong _ _ _ _ _ _ st o); [reflexivity|]. intros _. apply andthen_cong; [reflexivity|]. intros _. apply IH. }
  assert (EQ : forall o, (_ <~ lim m ;; effect (fun s => set_wind (i :: d_wind (s_dyn s)) s)) st o <-> in_guard prim i st o).
  { intro o1. unfold in_guard. fold g. refine (andthen_cong _ _ _ _ LM _ st o1). intro; reflexivity. }
  split; (intros [(u & s & H1 & H2)|(o1 & H1 & H2)]; [left; exists u, s|right; exists o1]; (split; [apply EQ; exact H1|auto])).
Qed.
Lemma common_self a : common_prefix a a = a.
Proof. induction a as [|x a IH]; [reflexivity|]. cbn. rewrite Nat.eqb_refl. now f_equal. Qed.
Lemma until_self a : until_common a a = [].
Proof. destruct a; [reflexivity|]. cbn. now rewrite Nat.eqb_refl. Qed.
Lemma until_nil a : until_common [] a = a.
Proof. induction a as [|x a IH]; [reflexivity|]. cbn. now f_equal. Qed.
(* the lists of guards that a jump runs *)
Lemma rewind_run target : forall st o,
  lim (fun n => rewind_to (eval prim n) target) st o <->
  (let c := common_prefix (d_wind (s_dyn st)) target in
   (_ <~ each_run (out_guard prim) (to_unwind c (d_wind (s_dyn st))) ;;
    _ <~ effect (set_wind c) ;; each_run (in_guard prim) (rev (skipn (length c) target))) st o).
Proof.
  intros st o. unfold rewind_to. rewrite lim_gets. set (c := common_prefix _ _). cbv zeta.
  etransitivity; [apply lim_bind; [apply mono_outs|intro; apply mono_bind; [apply mono_const|intro; apply mono_ins]]|].
  refine (andthen_cong _ _ _ _ (lim_outs _) _ st o). intros _.
  rewrite lim_bind; [|apply mono_const|intro; apply mono_ins]. apply andthen_cong; [apply lim_modify|]. intros _. apply lim_ins.
Qed.
Lemma jump_ok k v w st o : chain_of k (d_conts (s_dyn st)) = Some w -> linked (d_tails (s_dyn st)) (d_wind (s_dyn st)) -> linked (d_tails (s_dyn st)) w ->
  (lim (fun n => @dynthrow (eval prim n) val k v) st o <->
   (_ <~ change_extent prim w ;; land k v) st o).
Proof.
  intros C L1 L2. unfold dynthrow. rewrite lim_gets, C.
  assert (M : monotone (fun n => rewind_to (eval prim n) w)) by (intros n n' L; apply m_rewind; now apply hev).
  etransitivity; [apply lim_bind; [exact M|intro; apply mono_const]|].
  assert (LL : forall s o, lim (fun _ => fun st => if existsb (Nat.eqb k) (d_live (s_dyn st)) then Jump k v st else OFuel) s o <-> land k v s o).
  { intros s o1. unfold lim, land. split.
    - intros (n & <- & N). destruct (existsb _ _) eqn:X; [|congruence]. apply existsb_exists in X. destruct X as (j & I & E). apply Nat.eqb_eq in E. subst j. auto.
    - intros [I ->]. exists O. assert (X : existsb (Nat.eqb k) (d_live (s_dyn s)) = true) by (apply existsb_exists; exists k; rewrite Nat.eqb_refl; auto).
      rewrite X. split; [auto|discriminate]. }
  assert (RW : forall o, lim (fun n => rewind_to (eval prim n) w) st o <-> change_extent prim w st o).
  { intro o1. rewrite rewind_run. cbv zeta. unfold change_extent.
    destruct (list_eq_dec Nat.eq_dec (d_wind (s_dyn st)) w) as [E|NE].
    - rewrite E, common_self. unfold to_unwind. rewrite until_self, skipn_all. cbn [rev each_run].
      split.
      + intro H. apply (proj1 (andthen_returns _ _ _ _)) in H. apply (proj1 (andthen_effect _ _ _ _)) in H. rewrite H. unfold returns. do 2 f_equal.
        unfold set_wind, on_dyn, set_dyn. rewrite <- E. destruct st as [f m c p []]. reflexivity.
      + intro H. apply (proj2 (andthen_returns _ _ _ _)). apply (proj2 (andthen_effect _ _ _ _)). rewrite H. unfold returns. do 2 f_equal.
        unfold set_wind, on_dyn, set_dyn. rewrite <- E. destruct st as [f m c p []]. reflexivity.
    - destruct (common_linked _ _ _ L1 L2) as [CE|CE]; [|contradiction]. rewrite CE. unfold to_unwind. rewrite until_nil. cbn [length skipn]. reflexivity. }
  split; (intros [(u & s & H1 & H2)|(o1 & H1 & H2)]; [left; exists u, s|right; exists o1]; (split; [apply RW; exact H1|]); auto; apply LL; auto).
Qed.
Lemma runs_jump e k m x st v st1 o : run e x st (Ret v st1) ->
  (run e (VList [VCont k m; x] false) st o <-> lim (fun n => @dynthrow (eval prim n) val k v) st1 o).
Proof.
  intro R. rewrite runs_step. cbn [step].
  etransitivity; [apply lim_bind; [apply mono_eval|intros a n n' L; apply m_dynthrow; now apply hev]|].
  split.
  - intros [(a & s & H1 & H2)|(o1 & H1 & H2)].
    + assert (E : Ret a s = Ret v st1) by exact (runs_det prim e x st _ _ H1 R). injection E as E1 E2. subst. exact H2.
    + assert (E : o1 = Ret v st1) by exact (runs_det prim e x st _ _ H1 R). subst. inversion H2.
  - intro H. left. exists v, st1. auto.
Qed.

(** ** catch *)
Lemma tags_match_iff t k : tags_match t k = true <-> matches t k.
Proof.
  destruct t as [| |bb| | | |x| | | | | | | |]; try (cbn; split; [discriminate|tauto]).
  - destruct bb; cbn; split; auto; try discriminate; tauto.
  - destruct k; try (cbn; split; [discriminate|tauto]). cbn. destruct (beq_spec x n); split; auto; try discriminate; tauto.
Qed.
Lemma find_selected live l key : (forall i, In i (map fst l) -> In i live) -> NoDup (map fst l) ->
  match find_handler live l key with
  | Handler id => selected l key id
  | NoHandler => forall id, ~ selected l key id
  | Dangling => False
  end.
Proof.
  induction l as [|[i t] l IH]; intros HL ND; cbn [find_handler].
  - intros id (a & t & b & E & _). destruct a; discriminate.
  - assert (X : existsb (Nat.eqb i) live = true).
    { apply existsb_exists. exists i. rewrite Nat.eqb_refl. split; auto. apply HL. cbn. auto. }
    rewrite X. destruct (tags_match t key) eqn:T.
    + exists [], t, l. split; [reflexivity|]. split; [apply tags_match_iff; auto|]. intros j u [].
    + inversion ND; subst. assert (IH2 : match find_handler live l key with Handler id => selected l key id | NoHandler => forall id, ~ selected l key id | Dangling => False end).
      { apply IH; auto. intros j I. apply HL. cbn. auto. }
      assert (NT : ~ matches t key) by (intro M; apply tags_match_iff in M; congruence).
      destruct (find_handler live l key) as [id| |]; auto.
      * destruct IH2 as (a & u & b & -> & M & N). exists ((i, t) :: a), u, b. split; [reflexivity|]. split; auto.
        intros j w [E|I]; [injection E as <- <-; auto|eauto].
      * intros id (a & u & b & E & M & N). destruct a as [|[j w] a]; cbn in E.
        -- injection E as <- <- <-. auto.
        -- injection E as <- <- ->. apply (IH2 id). exists a, u, b. split; auto. split; auto. intros j2 w2 I. apply (N j2 w2). cbn. auto.
Qed.

(** ** calls on values *)
Lemma bind_values_run fe : forall xs rest vs,
  lim (fun _ => bind_values fe (match rest with Some _ => true | None => false end)
                  (map VSym xs ++ match rest with Some r => [VSym r] | None => [] end) vs false) == bind_vals fe xs rest vs.
Proof.
  induction xs as [|x xs IH]; intros rest vs.
  - destruct rest as [r|]; cbn [map app bind_values bind_vals]; [apply lim_modify|]. destruct vs; [apply lim_ret|apply lim_err].
  - assert (EQ : forall vs st, bind_values fe (match rest with Some _ => true | None => false end)
                  (map VSym (x :: xs) ++ match rest with Some r => [VSym r] | None => [] end) vs false st =
      match vs with
      | v :: vs => ebind (insert fe x v) (fun _ => bind_values fe (match rest with Some _ => true | None => false end)
                  (map VSym xs ++ match rest with Some r => [VSym r] | None => [] end) vs false)
      | [] => err end st).
    { intros us st. destruct xs as [|y xs], rest as [r|]; destruct us; reflexivity. }
    rewrite (lim_ext _ _ (fun _ st => EQ vs st)). clear EQ. destruct vs as [|v vs]; cbn [bind_vals]; [apply lim_err|].
    rewrite (lim_bind (fun _ => insert fe x v) (fun _ _ => bind_values fe _ _ vs false) (mono_const _) (fun _ => mono_const _)).
    apply andthen_cong; [apply lim_modify|]. intros _. apply IH.
Qed.
Definition vals_of (f : val) (vs : list val) (n : nat) : EM val :=
  match f with VProc ps d b pe => apply_vals (eval prim n) ps d b pe vs false | _ => err end.
Lemma lim_vals xs rest body pe vs : lim (vals_of (closure xs rest body pe) vs) == call_vals prim xs rest body pe vs.
Proof.
  unfold call_vals.
  transitivity (lim (fun n => ebind (alloc_frame pe) (fun fe => ebind (bind_values fe (match rest with Some _ => true | None => false end)
                  (map VSym xs ++ match rest with Some r => [VSym r] | None => [] end) vs false) (fun _ => eval_body (eval prim n) fe body)))).
  { apply lim_ext. intros n st. unfold vals_of, closure. destruct rest as [r|]; unfold apply_vals.
    - replace (has_rest (map VSym xs ++ [VSym r]) true) with true; [reflexivity|]. unfold has_rest. now rewrite last_last.
    - rewrite app_nil_r. reflexivity. }
  rewrite lim_bind; [|apply mono_const|intro; apply mono_bind; [apply mono_const|intro; apply mono_body]].
  apply andthen_cong; [apply lim_alloc|]. intro fe.
  rewrite lim_bind; [|apply mono_const|intro; apply mono_body].
  apply andthen_cong; [apply bind_values_run|]. intros _. apply lim_body.
Qed.

(** ** primitives that call back *)
Lemma mono_func nm ar vs : monotone (fun n => call_func prim (eval prim n) n nm ar vs).
Proof. intros n n' L. apply m_func; auto. now apply hev. Qed.
Lemma runs_func e nm ar args d : beq nm (bs "apply") = false -> beq nm (bs "map") || beq nm (bs "map-in-order") = false -> is_callcc nm = false ->
  run e (VList (VFunc nm ar :: args) d) == (vs <~ args_run prim e args ;; lim (fun n => call_func prim (eval prim n) n nm ar vs)).
Proof.
  intros E1 E2 E3. transitivity (lim (fun n => step prim (eval prim n) n e (VList (VFunc nm ar :: args) d))); [intros st o; apply runs_step|].
  transitivity (lim (fun n => ebind (eval_args (eval prim n) e args) (fun vs => call_func prim (eval prim n) n nm ar vs))).
  - apply lim_ext. intros n s. cbn [step]. now rewrite E1, E2, E3.
  - rewrite lim_bind; [|apply mono_args|intro; apply mono_func]. apply andthen_cong; [apply lim_args|reflexivity].
Qed.
Lemma args_det e : forall es st o1 o2, args_run prim e es st o1 -> args_run prim e es st o2 -> o1 = o2.
Proof.
  assert (L : forall es st o, args_run prim e es st o -> exists n, eval_args (eval prim n) e es st = o /\ o <> OFuel).
  { intros es st o H. apply (lim_args prim e es st o) in H. exact H. }
  intros es st o1 o2 H1 H2. destruct (L _ _ _ H1) as (n1 & E1 & N1), (L _ _ _ H2) as (n2 & E2 & N2).
  pose proof (mono_args prim e es n1 (Nat.max n1 n2) ltac:(lia) st) as [F|F]; [congruence|].
  pose proof (mono_args prim e es n2 (Nat.max n1 n2) ltac:(lia) st) as [G|G]; [congruence|]. congruence.
Qed.
Lemma after_args {A} e es (k : list val -> Beh A) st vs st1 o : args_run prim e es st (Ret vs st1) ->
  ((vs <~ args_run prim e es ;; k vs) st o <-> k vs st1 o).
Proof.
  intro H. split.
  - intros [(a & s & H1 & H2)|(o1 & H1 & H2)].
    + assert (E : Ret a s = Ret vs st1) by exact (args_det e es st _ _ H1 H). injection E as E1 E2. subst. exact H2.
    + assert (E : o1 = Ret vs st1) by exact (args_det e es st _ _ H1 H). subst. inversion H2.
  - intro K. left. exists vs, st1. auto.
Qed.
Lemma runs_throw e d args st key vs st1 o : args_run prim e args st (Ret (VSym key :: vs) st1) ->
  (run e (VList (VFunc (bs "throw") (-2) :: args) d) st o <-> o = throw (VSym key) (mklist vs) st1).
Proof.
  intro H. rewrite (runs_func e (bs "throw") (-2) args d eq_refl eq_refl eq_refl st o). rewrite (after_args e args _ st _ st1 o H).
  change (lim (fun n => call_func prim (eval prim n) n (bs "throw") (-2) (VSym key :: vs)) st1 o) with
    (lim (fun n => @throw val (VSym key) (mklist vs)) st1 o).
  unfold lim. split; [intros (n & <- & _); auto|intros ->; exists O; split; [auto|apply throw_not_fuel]].
Qed.

(** ** catch: the two ways it returns *)
Lemma catch_call e args d st tag bt pt h st1 o : args_run prim e args st (Ret [tag; closure [] None bt pt; h] st1) -> catch_tag tag ->
  match h with VProc _ _ _ _ => True | _ => False end ->
  (run e (VList (VFunc (bs "catch") 3 :: args) d) st o <-> lim (fun n => do_catch (eval prim n) n tag (closure [] None bt pt) h) st1 o).
Proof.
  intros H T P. rewrite (runs_func e (bs "catch") 3 args d eq_refl eq_refl eq_refl st o). rewrite (after_args e args _ st _ st1 o H).
  destruct h; try contradiction. destruct tag as [| |[]| | | |x| | | | | | | |]; try contradiction; cbn [closure map]; apply lim_ext; reflexivity.
Qed.
Lemma run_at {A} (M : nat -> EM A) (H : monotone M) st o : lim M st o -> exists n, forall m, (n <= m)%nat -> M m st = o.
Proof. intros (n & E & N). exists n. intros m L. destruct (H n m L st) as [F|F]; congruence. Qed.
Lemma catch_returns e args d st tag bt pt h st1 v st2 : args_run prim e args st (Ret [tag; closure [] None bt pt; h] st1) -> catch_tag tag ->
  match h with VProc _ _ _ _ => True | _ => False end -> (length (d_catch (s_dyn st1)) < 100)%nat ->
  call_run prim pt [] None bt pt [] (push_catch tag st1) (Ret v st2) ->
  run e (VList (VFunc (bs "catch") 3 :: args) d) st (Ret v (dead (d_next (s_dyn st1)) (pop_catch st2))).
Proof.
  intros H T P L B. apply (catch_call e args d st tag bt pt h st1 _ H T P).
  rewrite <- (lim_apply prim pt [] None bt pt [] (or_introl eq_refl) (push_catch tag st1) (Ret v st2)) in B. destruct B as (n & B & _). cbn [closure map] in B.
  exists n. split; [|discriminate]. unfold do_catch, catching.
  replace (100 <=? Z.of_nat (length (d_catch (s_dyn st1))))%Z with false by (symmetry; apply Z.leb_gt; lia).
  cbn [closure map]. rewrite B. reflexivity.
Qed.
Lemma catch_handles e args d st tag bt pt xs rest bh ph st1 key a st2 o : let id := d_next (s_dyn st1) in
  args_run prim e args st (Ret [tag; closure [] None bt pt; closure xs rest bh ph] st1) -> catch_tag tag ->
  (length (d_catch (s_dyn st1)) < 100)%nat ->
  call_run prim pt [] None bt pt [] (push_catch tag st1) (Thrown id key a st2) ->
  call_vals prim xs rest bh ph (handler_args key a) (note_catch (d_wind (s_dyn st1)) (pop_catch st2)) o -> not_to id o ->
  run e (VList (VFunc (bs "catch") 3 :: args) d) st (leave id o).
Proof.
  intros id H T L B HH NT.
  assert (P : match closure xs rest bh ph with VProc _ _ _ _ => True | _ => False end) by (unfold closure; destruct rest; exact I).
  apply (catch_call e args d st tag bt pt _ st1 _ H T P).
  rewrite <- (lim_apply prim pt [] None bt pt [] (or_introl eq_refl) (push_catch tag st1) (Thrown id key a st2)) in B. cbn [closure map] in B.
  rewrite <- (lim_vals xs rest bh ph _ _ o) in HH.
  apply run_at in B. 2:{ intros n n' LL. apply m_apply. now apply hev. }
  assert (NF : o <> OFuel) by (destruct HH as (? & ? & ?); auto).
  apply run_at in HH. 2:{ intros n n' LL. unfold vals_of. destruct (closure xs rest bh ph); try apply mle_refl. apply m_vals. now apply hev. }
  destruct B as (n1 & B), HH as (n2 & HH). exists (S (Nat.max n1 n2)). split.
  2:{ destruct o; cbn; try discriminate; congruence. }
  set (n := Nat.max n1 n2). unfold do_catch, catching.
  replace (100 <=? Z.of_nat (length (d_catch (s_dyn st1))))%Z with false by (symmetry; apply Z.leb_gt; lia).
  cbn [closure map]. rewrite B by (unfold n; lia). fold id. rewrite Nat.eqb_refl. cbn [handle].
  specialize (HH (S n) ltac:(unfold n; lia)). unfold vals_of in HH. rewrite HH.
  destruct o; cbn [leave]; auto. cbn in NT. now apply Nat.eqb_neq in NT as ->.
Qed.
Lemma catch_passed e args d st tag bt pt h st1 j key a st2 : let id := d_next (s_dyn st1) in
  args_run prim e args st (Ret [tag; closure [] None bt pt; h] st1) -> catch_tag tag ->
  match h with VProc _ _ _ _ => True | _ => False end -> (length (d_catch (s_dyn st1)) < 100)%nat ->
  call_run prim pt [] None bt pt [] (push_catch tag st1) (Thrown j key a st2) -> j <> id ->
  run e (VList (VFunc (bs "catch") 3 :: args) d) st (Thrown j key a (count_leak (dead id st2))).
Proof.
  intros id H T P L B N. apply (catch_call e args d st tag bt pt h st1 _ H T P).
  rewrite <- (lim_apply prim pt [] None bt pt [] (or_introl eq_refl) (push_catch tag st1) (Thrown j key a st2)) in B. destruct B as (n & B & _). cbn [closure map] in B.
  exists n. split; [|discriminate]. unfold do_catch, catching.
  replace (100 <=? Z.of_nat (length (d_catch (s_dyn st1))))%Z with false by (symmetry; apply Z.leb_gt; lia).
  cbn [closure map]. rewrite B. fold id. apply Nat.eqb_neq in N as ->. reflexivity.
Qed.
Lemma each_app {A} (f : A -> Beh unit) a : forall b, each_run f (a ++ b) == (_ <~ each_run f a ;; each_run f b).
Proof.
  induction a as [|x a IH]; intro b; cbn [app each_run].
  - symmetry. apply (andthen_returns tt (fun _ => each_run f b)).
  - rewrite andthen_assoc. apply andthen_cong; [reflexivity|]. intros _. apply IH.
Qed.
End Forms.
