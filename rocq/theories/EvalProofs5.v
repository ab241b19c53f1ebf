(** Rules for calls on quoted operands, map, for-each, apply, call-with-values,
    force and macros. *)
From Coq Require Import String Lia Setoid Morphisms.
From Verif Require Import Base ParseModel PrintModel EnvModel EnvSpec EnvProofs EvalModel EvalMono EvalInv EvalInv2 EvalInv3 EvalSpec EvalProofs
  EvalProofs2 EvalProofs3 EvalProofs4 EvalProperties.
Local Open Scope string_scope.
Local Open Scope list_scope.

Section Forms.
Variable prim : list Z -> list val -> pres.
Notation run := (runs prim).

Lemma after_run {A} e x (k : val -> Beh A) st v st1 o : run e x st (Ret v st1) -> ((a <~ run e x ;; k a) st o <-> k v st1 o).
Proof.
  intro H. split.
  - intros [(a & s2 & K1 & K2)|(o1 & K1 & K2)].
    + assert (E : Ret a s2 = Ret v st1) by exact (runs_det prim e x st _ _ K1 H). injection E as E1 E2. subst. exact K2.
    + assert (E : o1 = Ret v st1) by exact (runs_det prim e x st _ _ K1 H). subst. inversion K2.
  - intro K. left. exists v, st1. auto.
Qed.

(** ** operands that denote values *)
Lemma runs_quote e v st o : plain e "quote" st -> (run e (quoted v) st o <-> returns v st o).
Proof.
  intro P. change (quoted v) with (form_ "quote" [v]). rewrite (runs_special prim e "quote" FQuote _ st o P eq_refl). cbn [special]. apply lim_ret.
Qed.
Definition self (v : val) : Prop := match v with VSym _ | VList (_ :: _) _ => False | _ => True end.
Definition denotes (a v : val) : Prop := a = quoted v \/ (a = v /\ self v).
Lemma runs_denotes e a v st o : plain e "quote" st -> denotes a v -> (run e a st o <-> returns v st o).
Proof. intros P [-> |[-> S]]; [now apply runs_quote|]. apply runs_const. destruct v; auto. Qed.
Lemma args_denote e : forall es vs st o, plain e "quote" st -> Forall2 denotes es vs -> (args_run prim e es st o <-> returns vs st o).
Proof.
  intros es vs st o P F. revert o. induction F as [|a v es vs D F IH]; intro o; cbn [args_run]; [reflexivity|].
  etransitivity; [apply (after_run e a _ st v st o); now apply (runs_denotes e a v)|].
  split.
  - intros [(a' & s & H1 & H2)|(o1 & H1 & H2)]; apply IH in H1; unfold returns in H1.
    + injection H1 as -> ->. exact H2.
    + subst. inversion H2.
  - intro H. left. exists vs, st. split; [now apply IH|exact H].
Qed.
Lemma insert_in_new st st1 pe x v : in_new_frame st st1 pe ->
  in_new_frame st (env_insert st1 (mkEnv (length (s_frames st) :: e_chain pe) (e_mod pe)) x v false) pe.
Proof.
  intros (I1 & I2 & I3 & I4). unfold env_insert, search_entry. cbn [e_chain firstn search_chain].
  assert (G : forall f, in_new_frame st (set_frame st1 (length (s_frames st)) f) pe).
  { intro f. split; [auto|]. split; [auto|]. unfold set_frame, frame_at in *. cbn [s_frames s_mods s_cur]. rewrite upd_length. split; [auto|].
    intros a L. rewrite nth_upd by lia. replace (length (s_frames st) =? a)%nat with false by (symmetry; apply Nat.eqb_neq; lia). auto. }
  destruct (assoc x (frame_at st1 (length (s_frames st)))); apply G.
Qed.
Lemma plain_new e k st st1 pe : in_new_frame st st1 pe -> frames_exist e st -> plain e k st -> plain e k st1.
Proof.
  intros (I1 & I2 & I3 & I4) F P v H. apply (P v). rewrite <- H. inversion F as [|? ? F0 FC]; subst.
  assert (U : forall l x, uses_lookup st1 l x = uses_lookup st l x).
  { induction l as [|u l IH]; intro x; [reflexivity|]. cbn [uses_lookup]. unfold ob_lookup, mod_at. rewrite I1, IH. reflexivity. }
  unfold head_value, env_exist, search_entry, ob_lookup, mod_at.
  rewrite (search_new st st1 (firstn 1 (e_chain e))); auto.
  - rewrite I1, I2, U, (I4 0%nat F0). reflexivity.
  - destruct (e_chain e); cbn; constructor; inversion FC; auto.
Qed.
Lemma bind_denote e pe st : plain e "quote" st -> frames_exist e st -> forall xs rest es vs st1 o,
  in_new_frame st st1 pe -> Forall2 denotes es vs ->
  let fe := mkEnv (length (s_frames st) :: e_chain pe) (e_mod pe) in
  (bind_run prim e fe xs rest es st1 o <-> bind_vals fe xs rest vs st1 o).
Proof.
  intros P F xs rest es vs st1 o I D fe. revert es vs st1 o I D. induction xs as [|x xs IH]; intros es vs st1 o I D; cbn [bind_run bind_vals].
  - destruct rest as [r|].
    + assert (PN : plain e "quote" st1) by (eapply plain_new; eauto).
      split.
      * intros [(a & s & H1 & H2)|(o1 & H1 & H2)]; apply (args_denote e es vs) in H1; auto; unfold returns in H1.
        -- injection H1 as -> ->. exact H2.
        -- subst. inversion H2.
      * intro H. left. exists vs, st1. split; [apply (args_denote e es vs); [auto|auto|reflexivity]|exact H].
    + inversion D; subst; reflexivity.
  - inversion D as [|a v es' vs' D1 D2]; subst; [reflexivity|].
    assert (PN : plain e "quote" st1) by (eapply plain_new; eauto).
    rewrite (after_run e a _ st1 v st1 o) by (apply (runs_denotes e a v); auto; reflexivity).
    unfold binds. rewrite !andthen_effect. apply IH; auto. now apply insert_in_new.
Qed.
Lemma new_in_new pe st : in_new_frame st (mkState (s_frames st ++ [[]]) (s_mods st) (s_cur st) (s_proms st) (s_dyn st)) pe.
Proof. split; [auto|]. split; [auto|]. cbn. rewrite app_length. cbn. split; [lia|]. intros a L. unfold frame_at. cbn. rewrite app_nth1; auto. Qed.
Lemma call_denote e xs rest body pe es vs st o : plain e "quote" st -> frames_exist e st -> Forall2 denotes es vs ->
  (call_run prim e xs rest body pe es st o <-> call_vals prim xs rest body pe vs st o).
Proof.
  intros P F D. unfold call_run, call_vals. rewrite !andthen_new.
  assert (Q : forall o, _ <-> _) by (intro o1; exact (bind_denote e pe st P F xs rest es vs _ o1 (new_in_new pe st) D)). cbv zeta in Q.
  split; (intros [(u & s & H1 & H2)|(o1 & H1 & H2)]; [left; exists u, s|right; exists o1]; (split; [apply Q; exact H1|auto])).
Qed.
Lemma quoted_denote vs : Forall2 denotes (map quoted vs) vs.
Proof. induction vs; constructor; auto. now left. Qed.
Lemma self_denote vs : Forall self vs -> Forall2 denotes vs vs.
Proof. induction 1; constructor; auto. right. auto. Qed.

(** ** map *)
Lemma mono_quoted e f args : monotone (fun n => call_quoted prim (eval prim n) n e f args).
Proof. intros n n' L. apply m_quoted; auto. now apply hev. Qed.
Lemma mono_rows e f rs : monotone (fun n => map_rows prim (eval prim n) n e f rs).
Proof. intros n n' L. apply m_rows; auto. now apply hev. Qed.
Lemma lim_rows e f rs : lim (fun n => map_rows prim (eval prim n) n e f rs) == calls_run (fun r => lim (fun n => call_quoted prim (eval prim n) n e f r)) rs.
Proof.
  induction rs as [|r rs IH]; cbn [map_rows calls_run]; [apply lim_ret|].
  rewrite lim_bind; [|apply mono_quoted|intro; apply mono_bind; [apply mono_rows|intro; apply mono_const]]. apply andthen_cong; [reflexivity|]. intro v.
  rewrite lim_bind; [|apply mono_rows|intro; apply mono_const]. apply andthen_cong; [exact IH|]. intro vs. apply lim_ret.
Qed.
Lemma heads_some ls hs ts : heads ls = Some (hs, ts) -> hs = map (fun l => nth 0 l VNone) ls /\ ts = map (@tl val) ls /\ Forall (fun l => l <> []) ls.
Proof.
  revert hs ts. induction ls as [|[|x r] ls IH]; cbn; intros hs ts H.
  - injection H as <- <-. auto.
  - discriminate.
  - destruct (heads ls) as [[hs' ts']|] eqn:E; [|discriminate]. injection H as <- <-. destruct (IH _ _ eq_refl) as (-> & -> & F).
    repeat split; auto. constructor; auto. discriminate.
Qed.
Lemma heads_none ls : heads ls = None -> In [] ls.
Proof.
  induction ls as [|[|x r] ls IH]; cbn; intro H; [discriminate|auto|]. destruct (heads ls) as [[? ?]|] eqn:E; [discriminate|]. right. auto.
Qed.
Lemma fold_min_le l : forall a, (fold_left Nat.min l a <= a)%nat /\ (forall x, In x l -> (fold_left Nat.min l a <= x)%nat).
Proof.
  induction l as [|y l IH]; intro a; cbn; [split; [lia|intros x []]|]. destruct (IH (Nat.min a y)) as [A B]. split; [lia|].
  intros x [-> |I]; [lia|auto].
Qed.
Lemma shortest_nil l ls : In [] ls -> shortest (l :: ls) = O.
Proof. intro I. cbn. destruct (fold_min_le (map (@length val) ls) (length l)) as [_ B]. specialize (B O (in_map (@length val) ls [] I)). lia. Qed.
Lemma shortest_tl x l ls : Forall (fun l => l <> []) ls -> shortest ((x :: l) :: ls) = S (shortest (l :: map (@tl val) ls)).
Proof.
  cbn [shortest]. cbn [length]. rewrite map_map. generalize (length l) as a. clear l.
  induction ls as [|[|y m] ls IH]; intros a F; inversion F; subst; cbn [map fold_left]; [reflexivity|congruence|].
  cbn [length tl]. rewrite <- Nat.succ_min_distr. now apply IH.
Qed.
Lemma row_tl l ls i : row (map (@tl val) (l :: ls)) i = row (l :: ls) (S i).
Proof. unfold row. rewrite map_map. apply map_ext. intros [|]; cbn; [destruct i|]; reflexivity. Qed.
Lemma rows_spec : forall l ls, rows l ls = rows_of (l :: ls).
Proof.
  induction l as [|x l IH]; intro ls; cbn [rows].
  - unfold rows_of. cbn [shortest length]. destruct (fold_min_le (map (@length val) ls) 0) as [A _]. destruct (fold_left _ _ 0%nat); [reflexivity|lia].
  - unfold rows_of. destruct (heads ls) as [[hs ts]|] eqn:E.
    + apply heads_some in E as (-> & -> & F). rewrite (shortest_tl x l ls F). cbn [seq map]. f_equal. rewrite IH. unfold rows_of.
      rewrite <- seq_shift, map_map. apply map_ext. intro i. apply (row_tl (x :: l) ls i).
    + apply heads_none in E. rewrite (shortest_nil (x :: l) ls E). reflexivity.
Qed.
Lemma lists_eval ev e : forall es vals ls st st2, eval_args ev e es st = Ret vals st2 -> Forall2 (fun v l => elements v = Some l) vals ls ->
  eval_lists ev e es st = Ret ls st2.
Proof.
  induction es as [|x es IH]; intros vals ls st st2 E F; cbn [eval_args eval_lists] in *.
  - injection E as <- <-. inversion F; subst. reflexivity.
  - unfold ebind in *. destruct (ev e x st) as [v s1| | | | | |]; try discriminate.
    destruct (eval_args ev e es s1) as [vs s2| | | | | |] eqn:E2; try discriminate. injection E as <- <-.
    inversion F as [|? l ? ls' F1 F2]; subst. rewrite F1. unfold ebind. rewrite (IH _ _ _ _ E2 F2). reflexivity.
Qed.
Lemma lists_run e es st vals st2 ls o (K : list (list val) -> Beh val) : args_run prim e es st (Ret vals st2) -> Forall2 (fun v l => elements v = Some l) vals ls ->
  ((l <~ lim (fun n => eval_lists (eval prim n) e es) ;; K l) st o <-> K ls st2 o).
Proof.
  intros H F. apply (lim_args prim e es st _) in H. destruct H as (n & H & _). pose proof (lists_eval _ e es vals ls st st2 H F) as R.
  assert (M : monotone (fun n => eval_lists (eval prim n) e es)) by (intros m m' L; apply m_lists; now apply hev).
  assert (U : forall o1, lim (fun n => eval_lists (eval prim n) e es) st o1 -> o1 = Ret ls st2).
  { intros o1 (m & E & N). pose proof (M n (Nat.max n m) ltac:(lia) st) as [G|G]; [congruence|]. pose proof (M m (Nat.max n m) ltac:(lia) st) as [G2|G2]; congruence. }
  split.
  - intros [(a & s & H1 & H2)|(o1 & H1 & H2)]; apply U in H1; [injection H1 as -> ->; exact H2|subst; inversion H2].
  - intro k. left. exists ls, st2. split; [|exact k]. exists n. split; [exact R|discriminate].
Qed.
Definition fcall (e : env) (f : val) (r : list val) : Beh val := lim (fun n => call_quoted prim (eval prim n) n e f r).
Lemma calls_cong {A} (f g : A -> Beh val) l : (forall r, In r l -> f r == g r) -> calls_run f l == calls_run g l.
Proof.
  induction l as [|r l IH]; intro H; cbn [calls_run]; [reflexivity|]. apply andthen_cong; [apply H; now left|]. intro v.
  apply andthen_cong; [apply IH; intros; apply H; now right|reflexivity].
Qed.
Lemma runs_map e (nm : string) pf y lists st f st1 vals st2 ls o : nm = "map" \/ nm = "map-in-order" -> plain e nm st ->
  run e pf st (Ret f st1) -> is_callable f = true -> args_run prim e (y :: lists) st1 (Ret vals st2) ->
  Forall2 (fun v l => elements v = Some l) vals ls ->
  (run e (form_ nm (pf :: y :: lists)) st o <-> (vs <~ calls_run (fcall e f) (rows_of ls) ;; returns (mklist vs)) st2 o).
Proof.
  intros HN P Hf C Hl F.
  assert (FM : form_of (bs nm) = Some FMap) by (destruct HN as [-> | ->]; reflexivity).
  rewrite (runs_special prim e nm FMap _ st o P FM). cbn [special]. unfold do_map.
  assert (MR : forall rs, monotone (fun n => let! vs := map_rows prim (eval prim n) n e f rs in ret (mklist vs))).
  { intro rs. apply mono_bind; [apply mono_rows|intro; apply mono_const]. }
  assert (ML : forall es, monotone (fun n => eval_lists (eval prim n) e es)) by (intros es m m' L; apply m_lists; now apply hev).
  set (K := fun n f => if is_callable f then let! ls := eval_lists (eval prim n) e (y :: lists) in
      let! vs := map_rows prim (eval prim n) n e f (match ls with l :: r => rows l r | [] => [] end) in ret (mklist vs) else err).
  assert (MK : forall f, monotone (fun n => K n f)).
  { intro g. unfold K. destruct (is_callable g); [|apply mono_const]. apply mono_bind; [apply ML|]. intros ls'. apply mono_bind; [apply mono_rows|intro; apply mono_const]. }
  change (lim (fun n => ebind (eval prim n e pf) (K n)) st o <-> (vs <~ calls_run (fcall e f) (rows_of ls) ;; returns (mklist vs)) st2 o).
  etransitivity; [apply (lim_bind (fun n => eval prim n e pf) K); [apply mono_eval|exact MK]|].
  etransitivity; [apply (after_run e pf _ st f st1 o Hf)|].
  unfold K. rewrite C.
  etransitivity; [apply lim_bind; [apply ML|intro; apply mono_bind; [apply mono_rows|intro; apply mono_const]]|].
  etransitivity; [apply (lists_run e (y :: lists) st1 vals st2 ls o _ Hl F)|].
  assert (E : (match ls with l :: r => rows l r | [] => [] end) = rows_of ls) by (destruct ls; [reflexivity|apply rows_spec]).
  rewrite E. revert st2 Hl o. intros st2 _ o.
  etransitivity; [apply lim_bind; [apply mono_rows|intro; apply mono_const]|].
  refine (andthen_cong _ _ _ _ (lim_rows e f _) _ st2 o). intro vs. apply lim_ret.
Qed.
Lemma fcall_closure e xs rest body pe r : (rest = None \/ (length xs <= length r)%nat) ->
  fcall e (closure xs rest body pe) r == call_run prim e xs rest body pe (map quoted r).
Proof.
  intro H. unfold fcall. rewrite <- (lim_apply prim e xs rest body pe (map quoted r)); [|rewrite map_length; auto].
  unfold closure. destruct rest; reflexivity.
Qed.
Lemma fcall_prim e nm ar r st o : calls_back nm = false -> (-2 <= ar <= 3)%Z -> plain e "quote" st ->
  (fcall e (VFunc nm ar) r st o <-> prim_run prim nm ar r st o).
Proof.
  intros C A P. unfold fcall. cbn [call_quoted].
  etransitivity; [apply lim_bind; [apply mono_args|intros vs n n' L; apply m_func; auto; now apply hev]|].
  transitivity ((vs <~ args_run prim e (map quoted r) ;; prim_run prim nm ar vs) st o).
  { refine (andthen_cong _ _ _ _ (lim_args prim e _) _ st o). intro vs. now apply lim_prim. }
  apply after_args. apply (args_denote e (map quoted r) r st); auto; [apply quoted_denote|reflexivity].
Qed.

(** ** for-each *)
Lemma mono_each e f l ls : monotone (fun n => each_rows (eval prim n) e f l ls).
Proof. intros n n' L. apply m_each. now apply hev. Qed.
Definition ecall (e : env) (f : val) (r : list val) : Beh val := run e (VList (f :: map quoted r) false).
Lemma each_spec e f : forall m l ls, length l = m -> Forall (fun k => length k = m) ls -> Forall (Forall (fun x => x <> VNil)) (l :: ls) ->
  lim (fun n => each_rows (eval prim n) e f l ls) == (_ <~ calls_run (ecall e f) (rows_of (l :: ls)) ;; returns VNone).
Proof.
  induction m as [|m IH]; intros l ls E F N.
  - destruct l; [|discriminate]. assert (X : forallb exhausted ([] :: ls) = true).
    { cbn. apply forallb_forall. intros k I. rewrite Forall_forall in F. specialize (F k I). destruct k; [reflexivity|discriminate]. }
    cbn [each_rows]. rewrite X. rewrite lim_ret. unfold rows_of. cbn [shortest length].
    destruct (fold_min_le (map (@length val) ls) 0) as [A _]. destruct (fold_left _ _ 0%nat); [|lia]. cbn [seq map calls_run].
    symmetry. apply (andthen_returns [] (fun _ => returns VNone)).
  - destruct l as [|x l]; [discriminate|]. cbn in E. injection E as E.
    assert (X1 : exhausted (x :: l) = false).
    { inversion N as [|? ? N1 N2]; subst. inversion N1; subst. destruct x; try reflexivity. congruence. }
    assert (X2 : forall k, In k ls -> exhausted k = false).
    { intros k I. rewrite Forall_forall in F. specialize (F k I). inversion N as [|? ? N1 N2]; subst.
      rewrite Forall_forall in N2. specialize (N2 k I). destruct k as [|y k]; [discriminate|]. inversion N2; subst. destruct y; try reflexivity. congruence. }
    cbn [each_rows]. cbn [forallb existsb]. rewrite X1. cbn [andb orb].
    assert (X3 : existsb exhausted ls = false).
    { apply not_true_is_false. intro H. apply existsb_exists in H as (k & I & H). rewrite X2 in H; auto. discriminate. }
    rewrite X3.
    assert (NE : Forall (fun k => k <> []) ls).
    { rewrite Forall_forall in *. intros k I Z. subst. specialize (F _ I). discriminate. }
    rewrite lim_bind; [|apply mono_eval|intro; apply mono_each].
    unfold rows_of. rewrite (shortest_tl x l ls NE). cbn [seq map calls_run]. rewrite andthen_assoc.
    apply andthen_cong.
    + change (row ((x :: l) :: ls) 0) with (x :: map (fun k => nth 0 k VNone) ls). unfold ecall. cbn [map]. rewrite map_map.
      replace (map (fun k => quoted (nth 0 k VNone)) ls) with (map (fun k => quoted (hd VNone k)) ls); [reflexivity|].
      apply map_ext. intros [|]; reflexivity.
    + intro v. rewrite (IH l (map (@tl val) ls)); auto.
      * rewrite andthen_assoc. unfold rows_of.
        replace (map (row (l :: map (@tl val) ls)) (seq 0 (shortest (l :: map (@tl val) ls))))
          with (map (row ((x :: l) :: ls)) (seq 1 (shortest (l :: map (@tl val) ls)))).
        2:{ rewrite <- seq_shift, map_map. apply map_ext. intro i. symmetry. apply (row_tl (x :: l) ls i). }
        apply andthen_cong; [reflexivity|]. intro vs. symmetry. apply (andthen_returns (v :: vs) (fun _ => returns VNone)).
      * rewrite Forall_map. rewrite Forall_forall in *. intros k I. specialize (F k I). destruct k; cbn in *; [discriminate|lia].
      * inversion N as [|? ? N1 N2]; subst. constructor; [now inversion N1|]. rewrite Forall_map. eapply Forall_impl; [|exact N2].
        intros k H. destruct k; [constructor|now inversion H].
Qed.
Lemma nlists_eval ev e : forall es vals ls st st2, eval_args ev e es st = Ret vals st2 -> Forall2 (fun v l => elements v = Some l) vals ls ->
  eval_n_lists ev e (length es) es st = Ret ls st2.
Proof.
  induction es as [|x es IH]; intros vals ls st st2 E F; cbn [eval_args eval_n_lists length] in *.
  - injection E as <- <-. inversion F; subst. reflexivity.
  - unfold ebind in *. destruct (ev e x st) as [v s1| | | | | |]; try discriminate.
    destruct (eval_args ev e es s1) as [vs s2| | | | | |] eqn:E2; try discriminate. injection E as <- <-.
    inversion F as [|? l ? ls' F1 F2]; subst. rewrite F1. unfold ebind. rewrite (IH _ _ _ _ E2 F2). reflexivity.
Qed.
(* the operands of for-each have been evaluated *)
Lemma runs_for_each e pf lists st xs body pe st1 vals st2 l ls o : plain e "for-each" st ->
  run e pf st (Ret (closure xs None body pe) st1) -> length xs = length lists -> (length xs <= 10)%nat ->
  args_run prim e lists st1 (Ret vals st2) -> Forall2 (fun v l => elements v = Some l) vals (l :: ls) ->
  (run e (form_ "for-each" (pf :: lists)) st o <-> lim (fun n => each_rows (eval prim n) e (closure xs None body pe) l ls) st2 o).
Proof.
  intros P Hf Le L10 Hl F. rewrite (runs_special prim e "for-each" FForEach _ st o P eq_refl). cbn [special].
  set (f := closure xs None body pe) in *.
  destruct Hf as (n1 & Hf & _). apply (lim_args prim e lists st1 _) in Hl. destruct Hl as (n2 & Hl & _).
  assert (MF : monotone (fun n => do_for_each (eval prim n) e (pf :: lists))) by (intros m m' L; apply m_for_each; now apply hev).
  assert (E : forall n, (Nat.max n1 n2 <= n)%nat -> do_for_each (eval prim n) e (pf :: lists) st = each_rows (eval prim n) e f l ls st2).
  { intros n L. cbn [do_for_each]. unfold ebind at 1.
    pose proof (mono_eval prim e pf n1 n ltac:(lia) st) as [G|G]; [congruence|]. rewrite <- G, Hf.
    pose proof (mono_args prim e lists n2 n ltac:(lia) st1) as [G2|G2]; [congruence|]. rewrite Hl in G2.
    unfold f, closure. cbv beta iota. rewrite map_length, Le.
    replace (10 <? Z.of_nat (length lists))%Z with false by (symmetry; apply Z.ltb_ge; lia).
    unfold ebind. rewrite (nlists_eval _ e lists vals (l :: ls) st1 st2 (eq_sym G2) F). reflexivity. }
  assert (ME := mono_each e f l ls).
  split; intros (n & R & N).
  - exists (Nat.max n (Nat.max n1 n2)). split; [|auto]. rewrite <- E by lia. destruct (MF n (Nat.max n (Nat.max n1 n2)) ltac:(lia) st) as [G|G]; congruence.
  - exists (Nat.max n (Nat.max n1 n2)). split; [|auto]. rewrite E by lia. destruct (ME n (Nat.max n (Nat.max n1 n2)) ltac:(lia) st2) as [G|G]; congruence.
Qed.

(** ** apply *)
Lemma runs_apply e pf args l st xs rest body pe st1 lv els st2 vs st3 o : plain e "apply" st ->
  run e pf st (Ret (closure xs rest body pe) st1) -> run e l st1 (Ret lv st2) -> elements lv = Some els ->
  args_run prim e args st2 (Ret vs st3) -> (rest = None \/ (length xs <= length vs + length els)%nat) ->
  (run e (form_ "apply" (pf :: args ++ [l])) st o <-> call_run prim e xs rest body pe (vs ++ map quoted els) st3 o).
Proof.
  intros P Hf Hl E Ha H. rewrite (runs_special prim e "apply" FApply _ st o P eq_refl). cbn [special].
  rewrite <- (lim_apply prim e xs rest body pe (vs ++ map quoted els) ltac:(rewrite app_length, map_length; auto) st3 o).
  set (f := closure xs rest body pe) in *.
  destruct Hf as (n1 & Hf & _), Hl as (n2 & Hl & _). apply (lim_args prim e args st2 _) in Ha. destruct Ha as (n3 & Ha & _).
  assert (MF : monotone (fun n => do_apply prim (eval prim n) n n e (pf :: args ++ [l]))) by (intros m m' L; apply m_do_apply; auto; now apply hev).
  set (G := fun n => match f with VProc ps d b pe => apply_proc (eval prim n) e ps d b pe (vs ++ map quoted els) | _ => err end).
  assert (MG : monotone G).
  { intros m m' L. unfold G. destruct f; try apply mle_refl. apply m_apply. now apply hev. }
  set (N := S (Nat.max n1 (Nat.max n2 n3))).
  assert (EQ : forall n, (N <= n)%nat -> do_apply prim (eval prim n) n n e (pf :: args ++ [l]) st = G n st3).
  { intros n L. destruct n as [|n]; [unfold N in L; lia|]. cbn [do_apply]. unfold ebind at 1.
    pose proof (mono_eval prim e pf n1 (S n) ltac:(unfold N in L; lia) st) as [X|X]; [congruence|]. rewrite <- X, Hf.
    pose proof (mono_eval prim e l n2 (S n) ltac:(unfold N in L; lia) st1) as [Y|Y]; [congruence|].
    pose proof (mono_args prim e args n3 (S n) ltac:(unfold N in L; lia) st2) as [Z|Z]; [congruence|].
    assert (FP : exists ps d b q, f = VProc ps d b q) by (unfold f, closure; destruct rest; eauto).
    destruct FP as (ps & d & b & q & FP). unfold G. rewrite FP.
    pose proof (last_last args l VNone) as HL. pose proof (removelast_last args l) as HR.
    assert (NA : args ++ [l] <> []) by (destruct args; discriminate).
    destruct (args ++ [l]) as [|a r]; [congruence|]. rewrite HL, HR. unfold ebind at 1. rewrite <- Y, Hl, E. unfold ebind at 1. rewrite <- Z, Ha. reflexivity. }
  split; intros (n & R & K).
  - exists (Nat.max n N). split; [|auto]. change (G (Nat.max n N) st3 = o). rewrite <- EQ by lia. destruct (MF n (Nat.max n N) ltac:(lia) st) as [X|X]; congruence.
  - exists (Nat.max n N). split; [|auto]. rewrite EQ by lia. change (G n st3 = o) in R. destruct (MG n (Nat.max n N) ltac:(lia) st3) as [X|X]; congruence.
Qed.

(** ** call-with-values *)
Lemma runs_cwv e p c st bt pt st1 v st2 xs rest bc pc st3 o : plain e "call-with-values" st ->
  run e p st (Ret (closure [] None bt pt) st1) -> call_run prim e [] None bt pt [] st1 (Ret v st2) ->
  run e c st2 (Ret (closure xs rest bc pc) st3) -> (match v with VList _ d => d | _ => false end = false) ->
  (run e (form_ "call-with-values" [p; c]) st o <->
   call_vals prim xs rest bc pc (match v with VList ns _ => ns | VNil => [] | v => [v] end) st3 o).
Proof.
  intros P Hp Hv Hc DV. rewrite (runs_special prim e "call-with-values" FCwv _ st o P eq_refl). cbn [special].
  set (vs := match v with VList ns _ => ns | VNil => [] | v => [v] end).
  rewrite <- (lim_vals prim xs rest bc pc vs st3 o).
  apply (lim_apply prim e [] None bt pt [] (or_introl eq_refl)) in Hv. cbn [closure map] in Hv.
  destruct Hp as (n1 & Hp & _), Hv as (n2 & Hv & _), Hc as (n3 & Hc & _).
  assert (MF : monotone (fun n => do_call_with_values prim (eval prim n) n e [p; c])) by (intros m m' L; apply m_cwv; auto; now apply hev).
  set (f := closure xs rest bc pc) in *.
  assert (MG : monotone (vals_of prim f vs)).
  { intros m m' L. unfold vals_of. destruct f; try apply mle_refl. apply m_vals. now apply hev. }
  set (N := Nat.max n1 (Nat.max n2 n3)).
  assert (EQ : forall n, (N <= n)%nat -> do_call_with_values prim (eval prim n) n e [p; c] st = vals_of prim f vs n st3).
  { intros n L. unfold do_call_with_values. unfold ebind at 1.
    pose proof (mono_eval prim e p n1 n ltac:(unfold N in L; lia) st) as [X|X]; [congruence|]. rewrite <- X, Hp. cbn [closure map is_callable].
    unfold ebind at 1.
    assert (MA : monotone (fun n => apply_proc (eval prim n) e [] false bt pt [])) by (intros m m' LL; apply m_apply; now apply hev).
    pose proof (MA n2 n ltac:(unfold N in L; lia) st1) as [Y|Y]; [congruence|]. rewrite <- Y, Hv. unfold ebind at 1.
    pose proof (mono_eval prim e c n3 n ltac:(unfold N in L; lia) st2) as [Z|Z]; [congruence|]. rewrite <- Z, Hc.
    fold vs. rewrite DV. unfold vals_of. unfold f, closure. destruct rest; reflexivity. }
  split; intros (n & R & K).
  - exists (Nat.max n N). split; [|auto]. rewrite <- EQ by lia. destruct (MF n (Nat.max n N) ltac:(lia) st) as [X|X]; congruence.
  - exists (Nat.max n N). split; [|auto]. rewrite EQ by lia. destruct (MG n (Nat.max n N) ltac:(lia) st3) as [X|X]; congruence.
Qed.
Lemma runs_values e args d : run e (VList (VFunc (bs "values") (-2) :: args) d) == (vs <~ args_run prim e args ;; returns (mklist vs)).
Proof.
  rewrite (runs_func prim e (bs "values") (-2) args d eq_refl eq_refl eq_refl). apply andthen_cong; [reflexivity|]. intro vs.
  change (lim (fun n => ret (mklist vs)) == returns (mklist vs)). apply lim_ret.
Qed.

(** ** force *)
Lemma runs_force e x d st a st1 o : run e x st (Ret (VPromise a) st1) ->
  (run e (VList [VFunc (bs "force") 1; x] d) st o <-> lim (fun n => do_force (eval prim n) (VPromise a)) st1 o).
Proof.
  intro H. rewrite (runs_func prim e (bs "force") 1 [x] d eq_refl eq_refl eq_refl st o).
  assert (A : args_run prim e [x] st (Ret [VPromise a] st1)).
  { left. exists (VPromise a), st1. split; [exact H|]. left. exists [], st1. split; reflexivity. }
  rewrite (after_args prim e [x] _ st _ st1 o A). apply lim_ext. reflexivity.
Qed.
Lemma force_forced a st w : forced a w st -> forall o, lim (fun n => do_force (eval prim n) (VPromise a)) st o <-> o = Ret w st.
Proof.
  intros (p & E & V) o. cbn [do_force]. rewrite lim_gets, E, V. apply lim_ret.
Qed.
Lemma upd_same {A} (l : list A) a x : (a < length l)%nat -> nth_error (upd l a x) a = Some x.
Proof. intro L. rewrite nth_error_upd. rewrite Nat.eqb_refl. apply Nat.ltb_lt in L. now rewrite L. Qed.
Lemma force_result a st w st' : lim (fun n => do_force (eval prim n) (VPromise a)) st (Ret w st') -> forced a w st'.
Proof.
  intros (n & E & _). cbn [do_force] in E. unfold ebind at 1, gets in E. destruct (nth_error (s_proms st) a) as [p|] eqn:N; [|discriminate].
  destruct (pr_val p) as [w0|] eqn:V.
  - injection E as <- <-. exists p. auto.
  - unfold ebind at 1 in E.
    assert (G : Qgrow st (ending_of (eval prim (S n) (pr_env p) (VList [closure [] None [pr_body p] (pr_env p)] false) st))) by apply eval_grows.
    cbn [eval step closure map] in G.
    destruct (apply_proc (eval prim n) (pr_env p) [] false [pr_body p] (pr_env p) [] st) as [r s1| | | | | |]; try discriminate.
    unfold ebind at 1 in E. unfold gets in E. cbn in G.
    destruct (g_proms _ _ G a p N) as (q & Nq & _).
    rewrite Nq in E. destruct (pr_val q) as [w0|] eqn:Vq.
    + injection E as <- <-. exists q. auto.
    + unfold ebind, modify, ret in E. injection E as <- <-. unfold forced, set_promise. cbn [s_proms]. rewrite Nq.
      eexists. split; [apply upd_same; apply nth_error_Some; congruence|reflexivity].
Qed.
End Forms.
