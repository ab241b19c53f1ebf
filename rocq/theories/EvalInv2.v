(** Three invariants of evaluation: nothing is unbound or forgotten; the wind
    chain; the catch stack. *)
From Coq Require Import String Lia.
From Verif Require Import Base ParseModel PrintModel EnvModel EnvSpec EnvProofs EvalModel EvalInv.
Local Open Scope list_scope.

(** ** 1. Bindings, promises and output only grow *)
Record grows (st st' : state) : Prop := mkGrows {
  g_len : (length (s_frames st) <= length (s_frames st'))%nat;
  g_bound : forall p x, bound st p x <> None -> bound st' p x <> None;
  g_proms : forall a p, nth_error (s_proms st) a = Some p ->
    exists q, nth_error (s_proms st') a = Some q /\ pr_body q = pr_body p /\ pr_env q = pr_env p /\
      forall w, pr_val p = Some w -> pr_val q = Some w;
  g_out : exists s, d_out (s_dyn st') = d_out (s_dyn st) ++ s }.
Definition end_state (o : ending) : option state :=
  match o with ERet st | EThrown _ st | EJump _ st | EExit st => Some st | ENone => None end.
Definition Qgrow (st : state) (o : ending) : Prop := match end_state o with Some st' => grows st st' | None => True end.

Lemma grows_refl st : grows st st.
Proof.
  split; auto.
  - intros a p E. exists p. auto.
  - exists []. now rewrite app_nil_r.
Qed.
Lemma grows_trans a b c : grows a b -> grows b c -> grows a c.
Proof.
  intros [A1 A2 A3 A4] [B1 B2 B3 B4]. split; [lia|auto| |].
  - intros i p E. destruct (A3 i p E) as (q & E1 & H1 & H2 & H3). destruct (B3 i q E1) as (r & F1 & K1 & K2 & K3).
    exists r. repeat split; auto; congruence.
  - destruct B4 as [s' ->], A4 as [s ->]. exists (s ++ s'). now rewrite app_assoc.
Qed.
Lemma grows_dyn f st : d_out (f (s_dyn st)) = d_out (s_dyn st) -> grows st (on_dyn f st).
Proof.
  intro H. split; cbn; auto.
  - intros a p E. exists p. auto.
  - exists []. now rewrite app_nil_r.
Qed.
Lemma assoc_put_some x v l y : assoc y l <> None -> assoc y (put x v l) <> None.
Proof. intro H. rewrite assoc_put. destruct (beq x y); [discriminate|auto]. Qed.
Lemma upd_len {A} (l : list A) i x : length (upd l i x) = length l.
Proof. revert i. induction l; intros [|i]; cbn; auto. Qed.
Lemma nth_upd2 {A} (l : list A) i j x d : nth j (upd l i x) d = if (j =? i)%nat && (i <? length l)%nat then x else nth j l d.
Proof.
  revert i j. induction l as [|y l IH]; intros i j.
  - cbn. destruct j, (_ =? i)%nat; reflexivity.
  - destruct i, j; cbn [upd nth]; try reflexivity. rewrite IH. reflexivity.
Qed.
Lemma nth_error_upd {A} (l : list A) i j x : nth_error (upd l i x) j = if (j =? i)%nat && (i <? length l)%nat then Some x else nth_error l j.
Proof.
  revert i j. induction l as [|y l IH]; intros i j.
  - cbn. destruct j, (_ =? i)%nat; reflexivity.
  - destruct i, j; cbn [upd nth_error]; try reflexivity. rewrite IH. reflexivity.
Qed.
Lemma grows_frame st a f : (forall x, assoc x (frame_at st a) <> None -> assoc x f <> None) -> grows st (set_frame st a f).
Proof.
  intro H. split; cbn.
  - now rewrite upd_len.
  - intros [b|m] x; cbn; auto. rewrite nth_upd2. destruct ((b =? a)%nat && _) eqn:E; auto.
    apply andb_true_iff in E as [E _]. apply Nat.eqb_eq in E. subst. apply H.
  - intros i p E. exists p. auto.
  - exists []. now rewrite app_nil_r.
Qed.
Lemma grows_ob st m x v : grows st (ob_set st m x v).
Proof.
  split; cbn; auto.
  - intros [b|k] y; cbn; auto. rewrite nth_upd2. destruct ((k =? m)%nat && _) eqn:E; auto.
    apply andb_true_iff in E as [E _]. apply Nat.eqb_eq in E. subst. cbn. apply assoc_put_some.
  - intros i p E. exists p. auto.
  - exists []. now rewrite app_nil_r.
Qed.
Lemma grows_env st e : grows st (snd (make_env st e)).
Proof.
  split; cbn.
  - rewrite app_length. lia.
  - intros [b|m] x; cbn; auto. destruct (Nat.lt_ge_cases b (length (s_frames st))).
    + now rewrite app_nth1.
    + rewrite nth_overflow by auto. cbn. congruence.
  - intros i p E. exists p. auto.
  - exists []. now rewrite app_nil_r.
Qed.
Ltac byd := apply grows_dyn; reflexivity.
Lemma grows_current st m : grows st (set_current st m).
Proof.
  split; cbn; auto.
  - intros a p E. exists p. auto.
  - exists []. now rewrite app_nil_r.
Qed.

Theorem eval_grows prim n e x st : Qgrow st (ending_of (eval prim n e x st)).
Proof.
  apply ok_eval; clear; unfold Qgrow; cbn.
  - intro. apply grows_refl.
  - intros st st1 o H. destruct (end_state o); auto. intro. eapply grows_trans; eauto.
  - auto.
  - intros st key args. unfold throw. destruct (find_handler _ _ _); cbn; auto using grows_refl.
  - intros. apply grows_frame. intros. now apply assoc_put_some.
  - intros. apply grows_frame. intros y H. cbn. destruct (beq x y); [discriminate|auto].
  - apply grows_ob.
  - apply grows_env.
  - intros st s. split; cbn; auto.
    + intros a p E. exists p. auto.
    + now exists s.
  - intros st e x. split; cbn; auto.
    + intros a p E. exists p. split; auto. rewrite nth_error_app1; auto. apply nth_error_Some. congruence.
    + exists []. now rewrite app_nil_r.
  - intros st a p v E V. split; cbn; auto.
    + rewrite E. intros i q E1. rewrite nth_error_upd. destruct ((i =? a)%nat && _) eqn:B.
      * apply andb_true_iff in B as [B _]. apply Nat.eqb_eq in B. subst. eexists. split; [reflexivity|].
        assert (p = q) by congruence. subst. cbn. repeat split; auto. congruence.
      * exists q. auto.
    + exists []. now rewrite app_nil_r.
  - intros i o b t a Hb Ht Ha st. unfold winding, ebind, gets, modify, ret.
    specialize (Hb st). destruct (b st) as [v1 st1| | | | | |]; cbn in *; auto.
    specialize (Ht (push_wind i o st1)). assert (G : grows st1 (push_wind i o st1)) by byd.
    destruct (t (push_wind i o st1)) as [v2 st2| | | | | |]; cbn in *; eauto using grows_trans.
    specialize (Ha (set_wind (d_wind (s_dyn st1)) st2)).
    assert (G2 : grows st2 (set_wind (d_wind (s_dyn st1)) st2)) by byd.
    destruct (a _) as [v3 st3| | | | | |]; cbn in *; eauto using grows_trans.
  - intros f H st. unfold with_cont. specialize (H (VCont (d_next (s_dyn st)) (s_cur st)) (push_cont st)).
    assert (G : grows st (push_cont st)) by byd.
    assert (D : forall k s, grows s (dead k s)) by (intros; byd).
    destruct (f _ _); cbn in *; eauto using grows_trans.
    destruct (_ =? _)%nat; cbn; eauto using grows_trans, grows_current.
  - intros n tag b h Hb Hh st. unfold catching.
    destruct (100 <=? _)%Z.
    { unfold err, throw. destruct (find_handler _ _ _); cbn; auto using grows_refl. }
    assert (G : grows st (push_catch tag st)) by byd.
    assert (D : forall k s, grows s (dead k s)) by (intros; byd).
    assert (P : forall s, grows s (pop_catch s)) by (intros; byd).
    assert (L : forall s, grows s (count_leak s)) by (intros; byd).
    assert (C : forall w s, grows s (note_catch w s)) by (intros w s; unfold note_catch; destruct (list_eq_dec _ _ _); [apply grows_refl|byd]).
    assert (HH : forall n id w k a st, Qgrow st (ending_of (handle n id w h k a st))).
    { clear - Hh D P C. unfold Qgrow. induction n as [|n IH]; intros id w k a st; cbn; auto.
      specialize (Hh k a (note_catch w (pop_catch st))).
      destruct (h k a _); cbn in *; eauto using grows_trans.
      destruct (_ =? _)%nat; cbn; eauto using grows_trans.
      match goal with |- context [handle n id w h ?k ?a ?s] => specialize (IH id w k a s) end.
      destruct (end_state _); eauto using grows_trans. }
    specialize (Hb (push_catch tag st)). destruct (b _); cbn in *; eauto 6 using grows_trans.
    destruct (_ =? _)%nat; cbn; eauto 6 using grows_trans.
    match goal with |- context [handle n ?id ?w h ?k ?a ?s] => specialize (HH n id w k a s) end.
    unfold Qgrow in HH. destruct (end_state _); eauto using grows_trans.
  - intros ev k v Hg st. unfold dynthrow, ebind, gets.
    destruct (chain_of k (d_conts (s_dyn st))) as [w|]; [|exact I].
    set (Q := fun st o => match end_state o with Some st' => grows st st' | None => True end) in *.
    assert (R : ok Q (rewind_to ev w)).
    { assert (T : forall st st1 o, Q st (ERet st1) -> Q st1 o -> Q st o).
      { unfold Q. cbn. intros s s1 o H. destruct (end_state o); auto. intro. eapply grows_trans; eauto. }
      assert (W : forall f, ok Q (modify (fun s => set_wind (f s) s))) by (intros f s; unfold Q; cbn; byd).
      assert (GT : forall A (f : state -> A), ok Q (gets f)) by (intros A f s; unfold Q; cbn; apply grows_refl).
      unfold rewind_to. apply ok_bind; auto. intro cur. apply ok_bind; auto.
      { induction (to_unwind _ _) as [|i l IH]; cbn [run_outs]; [intro s; apply grows_refl|].
        apply ok_bind; auto. intro g. apply ok_bind; auto. destruct g as [[? ?]|]; [apply Hg | intro s; apply grows_refl]. }
      intros _. apply ok_bind; auto.
      intros _. induction (rev _) as [|i l IH]; cbn [run_ins]; [intro s; apply grows_refl|].
      apply ok_bind; auto. intro g. apply ok_bind; auto.
      { destruct g as [[? ?]|]; [apply Hg | intro s; apply grows_refl]. }
      intros _. apply ok_bind; auto. }
    specialize (R st). unfold Q in R. destruct (rewind_to ev w st) as [u s1| | | | | |]; try exact R.
    destruct (existsb (Nat.eqb k) (d_live (s_dyn s1))); [exact R | exact I].
Qed.
