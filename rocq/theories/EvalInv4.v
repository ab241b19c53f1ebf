(** Whatever happens during an evaluation (throws and jumps out of catches
    included), the entries that were on the catch stack when it began are still
    there, in the same order, when it ends; an uncaught throw only happens when no
    entry on the stack catches everything; a jump only goes to a call/cc call that
    is still on the stack. *)
From Coq Require Import String Lia.
From Verif Require Import Base ParseModel PrintModel EnvModel EnvSpec EnvProofs EvalModel EvalInv EvalSpec EvalInv3.
Local Open Scope list_scope.

Definition keeps (st st' : state) : Prop := exists x, d_catch (s_dyn st') = x ++ d_catch (s_dyn st).
Definition catch_alls (st : state) : Prop := exists i, In (i, VBool true) (d_catch (s_dyn st)).
Record N (st : state) : Prop := mkN {
  n_live : forall i, In i (d_live (s_dyn st)) -> (i < d_next (s_dyn st))%nat;
  n_catch : below (d_next (s_dyn st)) (d_catch (s_dyn st));
  n_conts : below (d_next (s_dyn st)) (d_conts (s_dyn st)) }.
Record since (st st' : state) : Prop := mkSince {
  s_n : (d_next (s_dyn st) <= d_next (s_dyn st'))%nat;
  s_live : forall i, In i (d_live (s_dyn st')) <-> In i (d_live (s_dyn st));
  s_conts : forall k, In k (map fst (d_conts (s_dyn st'))) -> In k (map fst (d_conts (s_dyn st))) \/ (d_next (s_dyn st) <= k)%nat;
  s_catches : forall j, In j (map fst (d_catch (s_dyn st'))) -> In j (map fst (d_catch (s_dyn st))) \/ (d_next (s_dyn st) <= j)%nat;
  s_kept : forall k, In k (map fst (d_conts (s_dyn st))) -> In k (map fst (d_conts (s_dyn st')));
  s_keeps : keeps st st' }.
Definition Qn (st : state) (o : ending) : Prop :=
  N st ->
  match o with
  | ERet s => N s /\ since st s
  | EThrown j s => N s /\ since st s /\ In j (map fst (d_catch (s_dyn s))) /\ In j (d_live (s_dyn s))
  | EJump k s => N s /\ since st s /\ In k (d_live (s_dyn s)) /\ In k (map fst (d_conts (s_dyn s)))
  | EExit s => keeps st s /\ ~ catch_alls s
  | ENone => True
  end.
Lemma keeps_refl st : keeps st st. Proof. now exists []. Qed.
Lemma keeps_trans a b c : keeps a b -> keeps b c -> keeps a c.
Proof. intros [x E] [y F]. exists (y ++ x). now rewrite F, E, app_assoc. Qed.
Lemma since_refl st : since st st. Proof. split; auto using keeps_refl. tauto. Qed.
Lemma since_trans a b c : since a b -> since b c -> since a c.
Proof.
  intros [A1 A2 A3 A6 A5 A4] [B1 B2 B3 B6 B5 B4]. split; [lia| | | |auto|eauto using keeps_trans].
  - intro i. rewrite B2. apply A2.
  - intros k I. destruct (B3 k I) as [J|J]; [auto|right; lia].
  - intros k I. destruct (B6 k I) as [J|J]; [auto|right; lia].
Qed.
Lemma Qn_trans st st1 o : Qn st (ERet st1) -> Qn st1 o -> Qn st o.
Proof.
  intros H1 H2 b. destruct (H1 b) as (b1 & l1). specialize (H2 b1).
  destruct o as [s|j s|j s|s|]; auto.
  - destruct H2. eauto using since_trans.
  - destruct H2 as (? & ? & ? & ?). eauto 6 using since_trans.
  - destruct H2 as (? & ? & ? & ?). eauto 6 using since_trans.
  - destruct H2 as (? & ?). split; auto. eapply keeps_trans; [apply s_keeps|]; eauto.
Qed.
Definition alike (st st' : state) : Prop :=
  d_catch (s_dyn st') = d_catch (s_dyn st) /\ d_live (s_dyn st') = d_live (s_dyn st) /\
  d_conts (s_dyn st') = d_conts (s_dyn st) /\ (d_next (s_dyn st) <= d_next (s_dyn st'))%nat.
Lemma alike_since st st' : alike st st' -> since st st'.
Proof.
  intros (E1 & E2 & E3 & L). split; auto.
  - intro. now rewrite E2.
  - rewrite E3. auto.
  - rewrite E1. auto.
  - rewrite E3. auto.
  - exists []. auto.
Qed.
Lemma alike_N st st' : alike st st' -> N st -> N st'.
Proof.
  intros (E1 & E2 & E3 & L) [a b c]. split; rewrite ?E1, ?E2, ?E3.
  - intros i I. specialize (a i I). lia.
  - now apply (below_le _ _ _ b).
  - now apply (below_le _ _ _ c).
Qed.
Lemma Qn_alike st st' : alike st st' -> Qn st (ERet st').
Proof. intros H b. split; eauto using alike_N, alike_since. Qed.
Ltac al := repeat split; cbn; auto; lia.
Lemma find_none_all live l key : find_handler live l key = NoHandler -> forall i, ~ In (i, VBool true) l.
Proof.
  induction l as [|[i t] l IH]; cbn; [tauto|]. destruct (existsb _ _); [|discriminate].
  destruct (tags_match t key) eqn:T; [discriminate|]. intros F j [[= -> ->]|I]; [discriminate|]. eapply IH; eauto.
Qed.
Lemma find_handler_alive live l key id : find_handler live l key = Handler id -> In id live.
Proof.
  induction l as [|[i t] l IH]; cbn; [discriminate|]. destruct (existsb (Nat.eqb i) live) eqn:X; [|discriminate].
  destruct (tags_match t key); [|auto]. intros [= <-]. apply existsb_exists in X as (j & I & X). apply Nat.eqb_eq in X. now subst.
Qed.
Lemma Qn_throw st key args : Qn st (ending_of (@throw val key args st)).
Proof.
  intro b. unfold throw. destruct (find_handler _ _ _) eqn:F; cbn; auto.
  - split; [auto|]. split; [apply since_refl|]. split; [eapply find_handler_in | eapply find_handler_alive]; eauto.
  - split; [apply keeps_refl|]. intros [i I]. eapply find_none_all; eauto.
Qed.
Lemma tl_keeps {A} x (a : A) y l : x ++ a :: y = l -> exists z, tl l = z ++ y.
Proof. destruct x as [|b x]; intros <-; cbn; [now exists []|]. exists (x ++ [a]). now rewrite <- app_assoc. Qed.
Lemma not_below {A} n (l : list (nat * A)) : below n l -> ~ In n (map fst l).
Proof. intros B I. apply in_map_iff in I as ((i, t) & E & I). cbn in E. subst. apply B in I. lia. Qed.
Lemma in_split_above (x : list (nat * val)) c i : In i (map fst (x ++ c)) -> ~ In i (map fst c) -> x <> [].
Proof. intros I H E. subst. contradiction. Qed.
Lemma tl_app (x c : list (nat * val)) : x <> [] -> exists y, tl (x ++ c) = y ++ c.
Proof. destruct x; [congruence|]. intros _. now exists x. Qed.

Lemma Qn_handle h st : (forall k a, ok Qn (h k a)) -> N st ->
  let id := d_next (s_dyn st) in
  forall n w k a s, N s -> (S id <= d_next (s_dyn s))%nat ->
  (forall i, In i (d_live (s_dyn s)) <-> i = id \/ In i (d_live (s_dyn st))) ->
  (forall j, In j (map fst (d_conts (s_dyn s))) -> In j (map fst (d_conts (s_dyn st))) \/ (id < j)%nat) ->
  (forall j, In j (map fst (d_conts (s_dyn st))) -> In j (map fst (d_conts (s_dyn s)))) ->
  (forall j, In j (map fst (d_catch (s_dyn s))) -> In j (map fst (d_catch (s_dyn st))) \/ (id <= j)%nat) ->
  keeps st s -> In id (map fst (d_catch (s_dyn s))) ->
  match ending_of (handle n id w h k a s) with
  | ERet s => N s /\ since st s
  | EThrown j s => N s /\ since st s /\ In j (map fst (d_catch (s_dyn s))) /\ In j (d_live (s_dyn s))
  | EJump k s => N s /\ since st s /\ In k (d_live (s_dyn s)) /\ In k (map fst (d_conts (s_dyn s)))
  | EExit s => keeps st s /\ ~ catch_alls s
  | ENone => True
  end.
Proof.
  intros Hh b id. assert (NL : ~ In id (d_live (s_dyn st))) by (intro I; apply (n_live _ b) in I; unfold id in *; lia).
  induction n as [|n IH]; intros w k a s bs LN LV LC LF LS LK LI; [exact I|]. cbn [handle].
  set (s1 := note_catch w (pop_catch s)).
  assert (E1 : d_catch (s_dyn s1) = tl (d_catch (s_dyn s)) /\ d_live (s_dyn s1) = d_live (s_dyn s) /\
               d_conts (s_dyn s1) = d_conts (s_dyn s) /\ d_next (s_dyn s1) = d_next (s_dyn s)).
  { unfold s1, note_catch. destruct (list_eq_dec _ _ _); cbn; auto. }
  clearbody s1. destruct E1 as (Ec & El & Ek & En).
  assert (K1 : keeps st s1).
  { destruct LK as [x E]. rewrite E in LI.
    assert (X : x <> []) by (eapply in_split_above; [exact LI|]; apply not_below, (n_catch _ b)).
    destruct (tl_app x (d_catch (s_dyn st)) X) as [y F]. exists y. now rewrite Ec, E. }
  assert (LS1 : forall j, In j (map fst (d_catch (s_dyn s1))) -> In j (map fst (d_catch (s_dyn st))) \/ (id <= j)%nat).
  { intros j I. apply LS. rewrite Ec in I. destruct (d_catch (s_dyn s)); [destruct I|now right]. }
  assert (b1 : N s1).
  { destruct bs as [c1 c2 c3]. split; rewrite ?Ec, ?El, ?Ek, ?En; auto.
    intros j v I. apply (c2 j v). destruct (d_catch (s_dyn s)); [destruct I | now right]. }
  specialize (Hh k a s1 b1).
  assert (K : forall s2, N s2 -> since s1 s2 -> N (dead id s2) /\ since st (dead id s2)).
  { intros s2 [c1 c2 c3] [l1 l2 l3 l6 l5 l4]. split.
    - split; cbn; auto. intros i I. apply in_remove_iff in I as [I _]. auto.
    - split; cbn.
      + lia.
      + intro i. rewrite in_remove_iff, l2, El, LV. split; [intuition congruence|]. intro I. split; auto. intro. subst. contradiction.
      + intros j I. destruct (l3 j I) as [J|J]; [|right; unfold id in *; lia]. rewrite Ek in J. destruct (LC j J); auto. right. unfold id in *. lia.
      + intros j I. destruct (l6 j I) as [J|J]; [|right; unfold id in *; lia]. destruct (LS1 j J); auto.
      + intros j J. apply l5. rewrite Ek. auto.
      + exact (keeps_trans _ _ _ K1 l4). }
  destruct (h k a s1) as [v s2|j k2 a2 s2|j v s2|s2| | |]; cbn in Hh |- *; auto.
  - destruct Hh. auto.
  - destruct Hh as (b2 & l2 & i2 & v2). destruct (Nat.eqb_spec j id) as [-> |NE].
    + destruct l2 as [q1 q2 q3 q6 q5 q4]. apply IH; auto.
      * lia.
      * intro i. rewrite q2, El. apply LV.
      * intros j I. destruct (q3 j I) as [J|J]; [|right; lia]. rewrite Ek in J. auto.
      * intros j J. apply q5. rewrite Ek. auto.
      * intros j I. destruct (q6 j I) as [J|J]; [auto|right; lia].
      * eapply keeps_trans; eauto.
    + cbn. destruct (K s2 b2 l2). split; [auto|]. split; [auto|]. split; [auto|]. now apply in_remove_iff.
  - destruct Hh as (b2 & l2 & i2 & i3). destruct (K s2 b2 l2) as (k1 & k2). split; [auto|]. split; [auto|]. split; [|exact i3].
    cbn. apply in_remove_iff. split; auto. intro. subst j.
    destruct l2 as [q1 q2 q3 q6 q5 q4]. destruct (q3 id i3) as [J|J]; [|lia]. rewrite Ek in J. destruct (LC id J) as [J2|J2]; [|lia].
    revert J2. apply not_below, (n_conts _ b).
  - destruct Hh as (? & ?). split; auto. eapply keeps_trans; eauto.
Qed.

Theorem eval_stack prim n e x st : Qn st (ending_of (eval prim n e x st)).
Proof.
  apply ok_eval; clear.
  - intros. apply Qn_alike. al.
  - exact Qn_trans.
  - intros st b. exact I.
  - intros. apply Qn_throw.
  - intros. apply Qn_alike. al.
  - intros. apply Qn_alike. al.
  - intros. apply Qn_alike. al.
  - intros. apply Qn_alike. al.
  - intros. apply Qn_alike. al.
  - intros. apply Qn_alike. al.
  - intros. apply Qn_alike. al.
  - intros i o b t a Hb Ht Ha. unfold winding.
    apply ok_bind; [exact Qn_trans|auto|intros _].
    apply ok_bind; [exact Qn_trans|intro s; apply Qn_alike; al|intros old].
    apply ok_bind; [exact Qn_trans|intro s; apply Qn_alike; al|intros _].
    apply ok_bind; [exact Qn_trans|auto|intros r].
    apply ok_bind; [exact Qn_trans|intro s; apply Qn_alike; al|intros _].
    apply ok_bind; [exact Qn_trans|auto|intros _]. intro s; apply Qn_alike; al.
  - intros f H st b. unfold with_cont.
    specialize (H (VCont (d_next (s_dyn st)) (s_cur st)) (push_cont st)).
    set (id := d_next (s_dyn st)) in *.
    assert (NL : ~ In id (d_live (s_dyn st))) by (intro I; apply (n_live _ b) in I; unfold id in *; lia).
    assert (b1 : N (push_cont st)).
    { destruct b as [c1 c2 c3]. split; cbn.
      - intros i [<-|I]; [lia|]. specialize (c1 i I). lia.
      - apply (below_le _ _ _ c2). lia.
      - now apply below_push. }
    assert (K : forall s, N s -> since (push_cont st) s -> N (dead id s) /\ since st (dead id s)).
    { intros s [c1 c2 c3] [l1 l2 l3 l6 l5 l4]. cbn in l1, l2, l3, l6, l5. split.
      - split; cbn; auto. intros i I. apply in_remove_iff in I as [I _]. auto.
      - split; cbn; [lia| | | |auto|exact l4].
        + intro i. rewrite in_remove_iff, l2. fold id. split; [intuition congruence|]. intro I. split; auto. intro. subst. contradiction.
        + intros j I. destruct (l3 j I) as [[J|J]|J]; auto; right; unfold id in *; lia.
        + intros j I. destruct (l6 j I) as [J|J]; auto; right; unfold id in *; lia. }
    specialize (H b1). destruct (f _ _) as [v s|j k a s|j v s|s| | |]; cbn in H |- *; auto.
    + destruct H. auto.
    + destruct H as (? & l & h3 & h4). destruct (K s); auto. split; [auto|]. split; [auto|]. split; [auto|].
      apply in_remove_iff. split; auto. intro. subst j. destruct l as [l1 l2 l3 l6 l5 l4]. cbn in l6.
      destruct (l6 id h3) as [J|J]; [|unfold id in *; lia]. revert J. apply not_below, (n_catch _ b).
    + destruct H as (? & ? & h3 & h4). destruct (K s) as (k1 & k2); auto.
      destruct (Nat.eqb_spec j id); cbn.
      * split; [eapply alike_N; [|exact k1]; al|]. eapply since_trans; [exact k2|]. apply alike_since. al.
      * split; [auto|]. split; [auto|]. split; auto. now apply in_remove_iff.
  - intros n tag b h Hb Hh st B0. unfold catching.
    destruct (100 <=? _)%Z; [apply (Qn_throw st _ _ B0)|].
    set (id := d_next (s_dyn st)).
    assert (NL : ~ In id (d_live (s_dyn st))) by (intro I; apply (n_live _ B0) in I; unfold id in *; lia).
    assert (b1 : N (push_catch tag st)).
    { destruct B0 as [c1 c2 c3]. split; cbn.
      - intros i [<-|I]; [lia|]. specialize (c1 i I). lia.
      - now apply below_push.
      - apply (below_le _ _ _ c3). lia. }
    assert (P : keeps st (push_catch tag st)) by now exists [(id, tag)].
    assert (K : forall s, N s -> since (push_catch tag st) s -> N (dead id s) /\ since st (dead id s)).
    { intros s [c1 c2 c3] [l1 l2 l3 l6 l5 l4]. cbn in l1, l2, l3, l6, l5. split.
      - split; cbn; auto. intros i I. apply in_remove_iff in I as [I _]. auto.
      - split; cbn; [lia| | | |auto|exact (keeps_trans _ _ _ P l4)].
        + intro i. rewrite in_remove_iff, l2. fold id. split; [intuition congruence|]. intro I. split; auto. intro. subst. contradiction.
        + intros j I. destruct (l3 j I) as [J|J]; auto; right; lia.
        + intros j I. destruct (l6 j I) as [[J|J]|J]; auto; right; unfold id in *; lia. }
    specialize (Hb _ b1). destruct (b (push_catch tag st)) as [v s|j k a s|j v s|s| | |]; cbn in Hb |- *; auto.
    + destruct Hb as (bs & l). destruct (K s bs l) as (k1 & k2). destruct l as [l1 l2 l3 l6 l5 [x l4]]. cbn in l4.
      destruct (tl_keeps x _ _ _ (eq_sym l4)) as [y E]. split.
      * destruct k1 as [c1 c2 c3]. split; cbn; auto. intros i t I. apply (c2 i t). cbn.
        destruct (d_catch (s_dyn s)); [destruct I|now right].
      * destruct k2 as [q1 q2 q3 q6 q5 q4]. split; auto; [|exists y; exact E].
        intros j I. apply q6. cbn in I |- *. destruct (d_catch (s_dyn s)); [destruct I|now right].
    + destruct Hb as (bs & l & i1 & v1). destruct (Nat.eqb_spec j id) as [-> |NE].
      * destruct l as [l1 l2 l3 l6 l5 l4]. cbn in l1, l2, l3, l6, l5. apply (Qn_handle h st Hh B0); auto.
        -- intro i. rewrite l2. fold id. intuition auto.
        -- intros j I. destruct (l6 j I) as [[J|J]|J]; auto; right; unfold id in *; lia.
        -- exact (keeps_trans _ _ _ P l4).
      * cbn. destruct (K s bs l) as (k1 & k2). split; [|split; [|split; [exact i1|now apply in_remove_iff]]].
        -- eapply alike_N; [|exact k1]. al.
        -- eapply since_trans; [exact k2|]. apply alike_since. al.
    + destruct Hb as (bs & l & i1 & i2). destruct (K s bs l) as (k1 & k2). split; [|split; [|split; [|exact i2]]].
      * eapply alike_N; [|exact k1]. al.
      * eapply since_trans; [exact k2|]. apply alike_since. al.
      * cbn. apply in_remove_iff. split; auto. intro. subst j. destruct l as [l1 l2 l3 l6 l5 l4]. cbn in l3.
        destruct (l3 id i2) as [J|J]; [|unfold id in *; lia]. revert J. apply not_below, (n_conts _ B0).
    + destruct Hb as (? & ?). split; auto. eapply keeps_trans; eauto.
  - intros ev k v Hg. unfold dynthrow.
    assert (NN : forall A (f : state -> A), ok Qn (gets f)) by (intros A f s; apply Qn_alike; al).
    intros st b. unfold ebind at 1, gets.
    destruct (chain_of k (d_conts (s_dyn st))) as [w|] eqn:E; [|exact I].
    assert (IK : In k (map fst (d_conts (s_dyn st)))).
    { clear - E. induction (d_conts (s_dyn st)) as [|[j u] l IH]; cbn in *; [discriminate|].
      destruct (Nat.eqb_spec j k); auto. }
    assert (R : ok Qn (rewind_to ev w)).
    { unfold rewind_to. apply ok_bind; [exact Qn_trans|apply NN|]. intro cur. apply ok_bind; [exact Qn_trans| |intros _].
      { induction (to_unwind _ _) as [|i l IH]; cbn [run_outs]; [intro s; apply Qn_alike; al|].
        apply ok_bind; [exact Qn_trans|apply NN|]. intro g. apply ok_bind; [exact Qn_trans| |intros _; apply IH].
        destruct g as [[? ?]|]; [apply Hg | intro s; apply Qn_alike; al]. }
      apply ok_bind; [exact Qn_trans|intro s; apply Qn_alike; al|]. intros _.
      induction (rev _) as [|i l IH]; cbn [run_ins]; [intro s; apply Qn_alike; al|].
      apply ok_bind; [exact Qn_trans|apply NN|]. intro g. apply ok_bind; [exact Qn_trans| |intros _].
      { destruct g as [[? ?]|]; [apply Hg | intro s; apply Qn_alike; al]. }
      apply ok_bind; [exact Qn_trans|intro s; apply Qn_alike; al|intros _; apply IH]. }
    specialize (R st b). unfold ebind.
    destruct (rewind_to ev w st) as [u s|j1 ? ? s|j1 ? s|s| | |]; try exact R.
    destruct (existsb (Nat.eqb k) (d_live (s_dyn s))) eqn:X; [|exact I]. cbn in R |- *. destruct R as (b2 & l2).
    split; [auto|]. split; [auto|]. split.
    + apply existsb_exists in X as (i & I & X). apply Nat.eqb_eq in X. now subst.
    + now apply (s_kept _ _ l2).
Qed.
