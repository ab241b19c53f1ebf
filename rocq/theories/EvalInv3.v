(** The wind chain and the catch stack are restored by every evaluation that
    returns, as long as no throw was handled (wind chain), and no throw or jump
    passed over a catch (catch stack). *)
From Coq Require Import String Lia.
From Verif Require Import Base ParseModel PrintModel EnvModel EnvSpec EnvProofs EvalModel EvalInv EvalSpec.
Local Open Scope list_scope.

Notation dy := s_dyn (only parsing).

(** ** 2. The wind chain *)
Ltac sw := repeat split; cbn; auto; lia.
Section Wind.
(** [c0]: how many throws had left a dynamic-wind when the evaluation began. *)
Variable c0 : nat.
Record W (st : state) : Prop := mkW {
  w_ge : (c0 <= d_caught (s_dyn st))%nat;
  w_t : below (d_next (s_dyn st)) (d_tails (s_dyn st));
  w_c : below (d_next (s_dyn st)) (d_conts (s_dyn st));
  w_l : d_caught (s_dyn st) = c0 -> linked (d_tails (s_dyn st)) (d_wind (s_dyn st)) /\
        forall k w, chain_of k (d_conts (s_dyn st)) = Some w -> linked (d_tails (s_dyn st)) w }.
Record after (st st' : state) : Prop := mkAfter {
  a_n : (d_next (s_dyn st) <= d_next (s_dyn st'))%nat;
  a_c : (d_caught (s_dyn st) <= d_caught (s_dyn st'))%nat;
  a_k : forall k w, chain_of k (d_conts (s_dyn st)) = Some w -> chain_of k (d_conts (s_dyn st')) = Some w;
  a_t : forall k w, chain_of k (d_tails (s_dyn st)) = Some w -> chain_of k (d_tails (s_dyn st')) = Some w }.
Definition Qw (st : state) (o : ending) : Prop :=
  W st ->
  match o with
  | ERet st' => W st' /\ after st st' /\ (d_caught (s_dyn st') = c0 -> d_wind (s_dyn st') = d_wind (s_dyn st))
  | EThrown _ st' => W st' /\ after st st'
  | EJump k st' => W st' /\ after st st' /\ (d_caught (s_dyn st') = c0 -> chain_of k (d_conts (s_dyn st')) = Some (d_wind (s_dyn st')))
  | EExit _ | ENone => True
  end.
Lemma after_refl st : after st st. Proof. split; auto. Qed.
Lemma after_trans a b c : after a b -> after b c -> after a c.
Proof. intros [] []. split; auto; lia. Qed.
Lemma chain_below n l k (w : list nat) : below n l -> chain_of k l = Some w -> (k < n)%nat.
Proof.
  intros B. induction l as [|[j u] l IH]; cbn; [discriminate|].
  destruct (Nat.eqb_spec j k) as [-> |]; intro E.
  - eapply B. left. reflexivity.
  - apply IH; auto. intros k' v' I. apply (B k' v'). now right.
Qed.
Lemma chain_push n l k (w u : list nat) : below n l -> chain_of k l = Some w -> chain_of k ((n, u) :: l) = Some w.
Proof. intros B E. pose proof (chain_below _ _ _ _ B E). cbn. destruct (Nat.eqb_spec n k); auto. lia. Qed.
Lemma linked_lift t t' c : (forall k w, chain_of k t = Some w -> chain_of k t' = Some w) -> linked t c -> linked t' c.
Proof. intro H. induction c; cbn; firstorder. Qed.
Lemma linked_suffix t a : forall b, linked t (a ++ b) -> linked t b.
Proof. induction a; cbn; firstorder. Qed.
Lemma below_push {A} n (l : list (nat * A)) u : below n l -> below (S n) ((n, u) :: l).
Proof. intros B k v [[= <- <-]|I]; [lia|]. specialize (B k v I). lia. Qed.
Lemma below_le {A} n m (l : list (nat * A)) : below n l -> (n <= m)%nat -> below m l.
Proof. intros B L k v I. specialize (B k v I). lia. Qed.

Ltac wl := repeat match goal with H : W _ |- _ => apply w_ge in H | H : after _ _ |- _ => destruct H end; cbn in *; lia.
Lemma Qw_trans st st1 o : Qw st (ERet st1) -> Qw st1 o -> Qw st o.
Proof.
  intros H1 H2 w. destruct (H1 w) as (w1 & a1 & e1). specialize (H2 w1).
  destruct o as [s|j s|j s|s|]; auto.
  - destruct H2 as (w2 & a2 & e2). split; [auto|]. split; [eauto using after_trans|].
    intro Z. rewrite e2 by auto. apply e1. wl.
  - destruct H2 as (w2 & a2). split; eauto using after_trans.
  - destruct H2 as (w2 & a2 & e2). split; [auto|]. split; eauto using after_trans.
Qed.
(* steps that do not concern the wind chain *)
Definition same_wind (st st' : state) : Prop :=
  d_wind (s_dyn st') = d_wind (s_dyn st) /\ d_conts (s_dyn st') = d_conts (s_dyn st) /\ d_tails (s_dyn st') = d_tails (s_dyn st) /\
  d_caught (s_dyn st') = d_caught (s_dyn st) /\ (d_next (s_dyn st) <= d_next (s_dyn st'))%nat.
Lemma same_W st st' : same_wind st st' -> W st -> W st'.
Proof.
  intros (E1 & E2 & E3 & E4 & L) [G A B C]. split; [lia|..].
  - rewrite E3. now apply (below_le _ _ _ A).
  - rewrite E2. now apply (below_le _ _ _ B).
  - rewrite E1, E2, E3, E4. auto.
Qed.
Lemma same_after st st' : same_wind st st' -> after st st'.
Proof. intros (E1 & E2 & E3 & E4 & L). split; auto; rewrite ?E2, ?E3; auto; lia. Qed.
Lemma Qw_same st st' : same_wind st st' -> Qw st (ERet st').
Proof. intros H w. split; [eauto using same_W|]. split; [eauto using same_after|]. intros _. apply H. Qed.
Lemma Qw_post_thrown st j s s' : same_wind s s' -> Qw st (EThrown j s) -> Qw st (EThrown j s').
Proof. intros H Q w. destruct (Q w) as (? & ?). split; eauto using same_W, after_trans, same_after. Qed.
Lemma Qw_post_jump st j s s' : same_wind s s' -> Qw st (EJump j s) -> Qw st (EJump j s').
Proof.
  intros H Q w. destruct (Q w) as (? & ? & e). split; [eauto using same_W|]. split; [eauto using after_trans, same_after|].
  destruct H as (E1 & E2 & E3 & E4 & L). now rewrite E1, E2, E4.
Qed.
Lemma W_note w st : W st -> W (note_catch w (pop_catch st)) /\ after st (note_catch w (pop_catch st)) /\
  (d_caught (s_dyn (note_catch w (pop_catch st))) = c0 -> d_wind (s_dyn (note_catch w (pop_catch st))) = w).
Proof.
  intros [G A B C]. unfold note_catch. destruct (list_eq_dec Nat.eq_dec _ w) as [E|E].
  - split; [|split]; auto; split; cbn; auto.
  - split; [|split].
    + split; cbn; auto; lia.
    + split; cbn; auto; lia.
    + cbn. lia.
Qed.
Lemma W_set_wind st w : (d_caught (s_dyn st) = c0 -> linked (d_tails (s_dyn st)) w) -> W st -> W (set_wind w st).
Proof. intros H [G A B C]. split; cbn; auto. intro Z. split; auto. now apply C. Qed.
Lemma common_linked t a b : linked t a -> linked t b -> common_prefix a b = [] \/ a = b.
Proof.
  destruct a as [|x a], b as [|y b]; cbn; auto. intros [E1 _] [E2 _].
  destruct (Nat.eqb_spec x y); auto. subst. right. congruence.
Qed.
Lemma common_refl a : common_prefix a a = a.
Proof. induction a; cbn; auto. rewrite Nat.eqb_refl. congruence. Qed.

Lemma Qw_handle h w : (forall k a, ok Qw (h k a)) -> forall n id k a st, W st ->
  match ending_of (handle n id w h k a st) with
  | ERet st' => W st' /\ after st st' /\ (d_caught (s_dyn st') = c0 -> d_wind (s_dyn st') = w)
  | EThrown _ st' => W st' /\ after st st'
  | EJump k st' => W st' /\ after st st' /\ (d_caught (s_dyn st') = c0 -> chain_of k (d_conts (s_dyn st')) = Some (d_wind (s_dyn st')))
  | EExit _ | ENone => True
  end.
Proof.
  intro Hh. induction n as [|n IH]; intros id k a st w0; [exact I|]. cbn [handle].
  destruct (W_note w st w0) as (w1 & a1 & e1).
  assert (D : forall s, same_wind s (dead id s)) by (intros; sw).
  specialize (Hh k a (note_catch w (pop_catch st)) w1). set (s1 := note_catch w (pop_catch st)) in *. clearbody s1.
  destruct (h k a s1) as [v s|j key ar s|j v s|s| | |]; cbn in Hh |- *; auto.
  - destruct Hh as (w2 & a2 & e2). split; [eauto using same_W|]. split; [eauto using after_trans, same_after|].
    intro Z. rewrite e2 by auto. apply e1. wl.
  - destruct Hh as (w2 & a2). destruct (j =? id)%nat.
    + specialize (IH id key ar s w2). destruct (ending_of (handle n id w h key ar s)); auto.
      * destruct IH as (? & ? & ?). split; [auto|]. split; eauto using after_trans.
      * destruct IH as (? & ?). split; eauto using after_trans.
      * destruct IH as (? & ? & ?). split; [auto|]. split; eauto using after_trans.
    + cbn. split; [eauto using same_W|]. eauto using after_trans, same_after.
  - destruct Hh as (w2 & a2 & e2). split; [eauto using same_W|]. split; [eauto using after_trans, same_after|]. cbn. auto.
Qed.

Section Rewind.
Variable ev : env -> val -> EM val.
Hypothesis Hg : forall f, ok Qw (call_guard ev f).
Lemma Qw_outs ids : ok Qw (run_outs ev ids).
Proof.
  induction ids as [|i l IH]; cbn [run_outs]; [intro s; apply Qw_same; sw|].
  apply ok_bind; [exact Qw_trans|intro s; apply Qw_same; sw|]. intro g.
  apply ok_bind; [exact Qw_trans| |intro; apply IH].
  destruct g as [[? ?]|]; [apply Hg | intro s; apply Qw_same; sw].
Qed.
(* the in guards: [w] is the target, of which [done] has been put back *)
Lemma ins_spec w : forall ids done st, w = rev ids ++ done ->
  W st -> (d_caught (s_dyn st) = c0 -> d_wind (s_dyn st) = done /\ linked (d_tails (s_dyn st)) w) ->
  match ending_of (run_ins ev ids st) with
  | ERet st' => W st' /\ after st st' /\ (d_caught (s_dyn st') = c0 -> d_wind (s_dyn st') = w)
  | EThrown _ st' => W st' /\ after st st'
  | EJump k st' => W st' /\ after st st' /\ (d_caught (s_dyn st') = c0 -> chain_of k (d_conts (s_dyn st')) = Some (d_wind (s_dyn st')))
  | EExit _ | ENone => True
  end.
Proof.
  induction ids as [|i l IH]; intros done st E w0 H; cbn [run_ins].
  { cbn in *. subst. split; [auto|]. split; [apply after_refl|]. intro. now apply H. }
  cbn [rev] in E. rewrite <- app_assoc in E. cbn in E.
  unfold ebind at 1, gets.
  set (m := match guards_of i (d_guards (s_dyn st)) with Some (n, _) => call_guard ev n | None => ret tt end).
  assert (M : ok Qw m).
  { unfold m. destruct (guards_of _ _) as [[? ?]|]; [apply Hg | intro s; apply Qw_same; sw]. }
  specialize (M st w0). unfold ebind at 1. destruct (m st) as [u s|j k a s|j v s|s| | |]; cbn in M; [|cbn; auto ..].
  destruct M as (w1 & a1 & e1).
  unfold ebind at 1, modify. cbn beta iota.
  set (s2 := set_wind (i :: d_wind (s_dyn s)) s).
  assert (K : d_caught (s_dyn s) = c0 -> d_wind (s_dyn s) = done /\ linked (d_tails (s_dyn s)) w).
  { intro Z. destruct H as [H1 H2]; [wl|]. rewrite e1 by auto. split; auto.
    eapply linked_lift; [apply (a_t _ _ a1)|auto]. }
  assert (w2 : W s2).
  { apply W_set_wind; auto. intro Z. destruct (K Z) as [K1 K2]. rewrite K1.
    rewrite E in K2. now apply linked_suffix in K2. }
  specialize (IH (i :: done) s2 E w2).
  assert (IH2 := IH ltac:(intro Z; destruct (K Z) as [K1 K2]; cbn; rewrite K1; auto)). clear IH.
  assert (a2 : after st s2) by (destruct a1; split; cbn; auto).
  destruct (ending_of (run_ins ev l s2)); auto.
  - destruct IH2 as (? & ? & ?). split; [auto|]. split; eauto using after_trans.
  - destruct IH2 as (? & ?). split; eauto using after_trans.
  - destruct IH2 as (? & ? & ?). split; [auto|]. split; eauto using after_trans.
Qed.
Lemma rewind_spec w st : W st -> (d_caught (s_dyn st) = c0 -> linked (d_tails (s_dyn st)) w) ->
  match ending_of (rewind_to ev w st) with
  | ERet st' => W st' /\ after st st' /\ (d_caught (s_dyn st') = c0 -> d_wind (s_dyn st') = w)
  | EThrown _ st' => W st' /\ after st st'
  | EJump k st' => W st' /\ after st st' /\ (d_caught (s_dyn st') = c0 -> chain_of k (d_conts (s_dyn st')) = Some (d_wind (s_dyn st')))
  | EExit _ | ENone => True
  end.
Proof.
  intros w0 H. unfold rewind_to. unfold ebind at 1, gets. unfold ebind at 1.
  set (cur := d_wind (s_dyn st)). set (c := common_prefix cur w).
  pose proof (Qw_outs (to_unwind c cur) st w0) as O.
  destruct (run_outs ev (to_unwind c cur) st) as [u s|j k a s|j v s|s| | |]; cbn in O; [|cbn; auto ..].
  destruct O as (w1 & a1 & e1). unfold ebind at 1, modify. cbn beta iota.
  set (s2 := set_wind c s).
  assert (a2 : after st s2) by (destruct a1; split; cbn; auto).
  assert (G : d_caught (s_dyn s) = c0 -> linked (d_tails (s_dyn s)) w /\ (c = [] \/ cur = w)).
  { intro Z. assert (Z0 : d_caught (s_dyn st) = c0) by (wl). split.
    - eapply linked_lift; [apply (a_t _ _ a1)|auto].
    - eapply common_linked; [|apply (H Z0)]. now destruct (w_l st w0 Z0). }
  assert (w2 : W s2).
  { apply W_set_wind; auto. intro Z. destruct (G Z) as [G1 [G2|G2]]; [now rewrite G2|].
    unfold c. rewrite G2, common_refl. auto. }
  (* if throws have been handled, nothing is claimed about the chain: use any target *)
  destruct (Nat.eq_dec (d_caught (s_dyn s)) c0) as [Z|NZ].
  - destruct (G Z) as [G1 G2].
    assert (E : w = rev (rev (skipn (length c) w)) ++ c).
    { rewrite rev_involutive. destruct G2 as [G2|G2]; [rewrite G2; cbn; now rewrite app_nil_r|].
      unfold c. rewrite G2, common_refl, skipn_all. reflexivity. }
    pose proof (ins_spec w _ c s2 E w2) as I.
    assert (I2 := I ltac:(intros _; cbn; auto)). clear I.
    destruct (ending_of _); auto.
    + destruct I2 as (? & ? & ?). split; [auto|]. split; eauto using after_trans.
    + destruct I2 as (? & ?). split; eauto using after_trans.
    + destruct I2 as (? & ? & ?). split; [auto|]. split; eauto using after_trans.
  - pose proof (ins_spec (rev (rev (skipn (length c) w)) ++ c) _ c s2 eq_refl w2) as I.
    assert (I2 := I ltac:(cbn; intro; congruence)). clear I.
    destruct (ending_of _); auto.
    + destruct I2 as (? & K & ?). split; [auto|]. split; [eauto using after_trans|]. intro Z. wl.
    + destruct I2 as (? & ?). split; eauto using after_trans.
    + destruct I2 as (? & ? & ?). split; [auto|]. split; eauto using after_trans.
Qed.
End Rewind.

Theorem eval_wind prim n e x st : Qw st (ending_of (eval prim n e x st)).
Proof.
  apply ok_eval; clear.
  - intros. apply Qw_same. sw.
  - exact Qw_trans.
  - intros st w. exact I.
  - intros st key args w. unfold throw. destruct (find_handler _ _ _); cbn; auto using after_refl.
  - intros. apply Qw_same. sw.
  - intros. apply Qw_same. sw.
  - intros. apply Qw_same. sw.
  - intros. apply Qw_same. sw.
  - intros. apply Qw_same. sw.
  - intros. apply Qw_same. sw.
  - intros. apply Qw_same. sw.
  - intros i o b t a Hb Ht Ha st w. unfold winding, ebind, gets, modify, ret.
    specialize (Hb st w). destruct (b st) as [v1 s1| | | | | |]; cbn in Hb |- *; auto.
    destruct Hb as (w1 & a1 & e1).
    assert (w2 : W (push_wind i o s1)).
    { destruct w1 as [G A B C]. split; cbn; [lia|..].
      - now apply below_push.
      - now apply (below_le _ _ _ B); lia.
      - intro Z. destruct (C Z) as [C1 C2]. rewrite Nat.eqb_refl.
        assert (LL : forall k u, chain_of k (d_tails (s_dyn s1)) = Some u ->
          chain_of k ((d_next (s_dyn s1), d_wind (s_dyn s1)) :: d_tails (s_dyn s1)) = Some u) by (intros; now apply chain_push).
        split; [split; [reflexivity|]|]; [|intros k u E]; eapply linked_lift; eauto. }
    assert (a2 : after s1 (push_wind i o s1)).
    { destruct w1 as [G A B C]. split; cbn; auto. intros k u E. now apply (chain_push _ _ _ _ _ A E). }
    specialize (Ht _ w2). destruct (t (push_wind i o s1)) as [v2 s2|j2 ? ? s2|j2 ? s2|s2| | |]; cbn in Ht |- *; auto.
    + destruct Ht as (w3 & a3 & e3). set (old := d_wind (s_dyn s1)) in *.
      assert (w4 : W (set_wind old s2)).
      { apply W_set_wind; auto. intro Z. eapply linked_lift; [apply (a_t _ _ (after_trans _ _ _ a2 a3))|].
        apply (w_l _ w1). wl. }
      assert (a4 : after s2 (set_wind old s2)) by (split; cbn; auto).
      specialize (Ha _ w4). destruct (a (set_wind old s2)) as [v5 s5|j5 ? ? s5|j5 ? s5|s5| | |]; cbn in Ha |- *; auto.
      * destruct Ha as (w5 & a5 & e5). split; [auto|]. split; [eauto 6 using after_trans|].
        intro Z. rewrite e5 by auto. unfold old. apply e1. wl.
      * destruct Ha. split; eauto 6 using after_trans.
      * destruct Ha as (? & ? & ?). split; [auto|]. split; eauto 6 using after_trans.
    + destruct Ht. split; eauto 6 using after_trans.
    + destruct Ht as (? & ? & ?). split; [auto|]. split; eauto 6 using after_trans.
  - intros f H st w. unfold with_cont.
    specialize (H (VCont (d_next (s_dyn st)) (s_cur st)) (push_cont st)).
    assert (w2 : W (push_cont st)).
    { destruct w as [G A B C]. split; cbn; [lia|..].
      - now apply (below_le _ _ _ A); lia.
      - now apply below_push.
      - intro Z. destruct (C Z) as [C1 C2]. split; auto. intros k u. destruct (_ =? k)%nat; [intros [= <-]; auto|eauto]. }
    assert (a2 : after st (push_cont st)).
    { destruct w as [G A B C]. split; cbn; auto. intros k u E. now apply (chain_push _ _ _ _ _ B E). }
    assert (D : forall k s, same_wind s (dead k s)) by (intros; sw).
    specialize (H w2). destruct (f _ _) as [v s|j k a s|j v s|s| | |]; cbn in H |- *; auto.
    + destruct H as (w3 & a3 & e3). split; [eauto using same_W|]. split; [eauto using after_trans, same_after|]. cbn. auto.
    + destruct H as (w3 & a3). split; [eauto using same_W|]. eauto using after_trans, same_after.
    + destruct H as (w3 & a3 & e3). destruct (Nat.eqb_spec j (d_next (s_dyn st))) as [-> |N]; cbn.
      * assert (S2 : same_wind s (set_current (dead (d_next (s_dyn st)) s) (s_cur st))) by sw.
        split; [eauto using same_W|]. split; [eauto using after_trans, same_after|].
        intro Z. specialize (e3 Z). pose proof (a_k _ _ a3 (d_next (s_dyn st)) (d_wind (s_dyn st))) as K.
        cbn in K. rewrite Nat.eqb_refl in K. specialize (K eq_refl). congruence.
      * split; [eauto using same_W|]. split; [eauto using after_trans, same_after|]. cbn. auto.
  - intros n tag b h Hb Hh st. unfold catching.
    destruct (100 <=? _)%Z.
    { intro w. unfold err, throw. destruct (find_handler _ _ _); cbn; auto using after_refl. }
    assert (P : same_wind st (push_catch tag st)) by sw.
    eapply Qw_trans; [apply (Qw_same _ _ P)|].
    specialize (Hb (push_catch tag st)). destruct (b _) as [v s|j k a s|j v s|s| | |]; cbn in Hb |- *; auto.
    + eapply Qw_trans; [exact Hb|]. apply Qw_same. sw.
    + destruct (_ =? _)%nat.
      * intro w. destruct (Hb w) as (w1 & a1).
        assert (G := Qw_handle h (d_wind (s_dyn st)) Hh n (d_next (s_dyn st)) k a s w1).
        destruct (ending_of (handle n (d_next (s_dyn st)) (d_wind (s_dyn st)) h k a s)) as [s'| | | |]; auto.
        -- destruct G as (w2 & a2 & e2). split; [auto|]. split; eauto using after_trans.
        -- destruct G. split; eauto using after_trans.
        -- destruct G as (? & ? & ?). split; [auto|]. split; eauto using after_trans.
      * cbn. eapply Qw_post_thrown; [|exact Hb]. sw.
    + eapply Qw_post_jump; [|exact Hb]. sw.
  - intros ev k v Hg st w. unfold dynthrow, ebind, gets.
    destruct (chain_of k (d_conts (s_dyn st))) as [c|] eqn:E; [|exact I].
    pose proof (rewind_spec ev Hg c st w) as R.
    assert (R2 := R ltac:(intro Z; eapply (w_l st w); eauto)). clear R.
    destruct (rewind_to ev c st) as [u s1|j1 ? ? s1|j1 ? s1|s1| | |]; try exact R2.
    destruct (existsb (Nat.eqb k) (d_live (s_dyn s1))); [|exact I]. cbn in R2 |- *.
    destruct R2 as (w1 & a1 & e1). split; [auto|]. split; [auto|]. intro Z. rewrite e1 by auto. now apply (a_k _ _ a1).
Qed.
End Wind.

(** ** 3. The catch stack *)
Section Catch.
(** [c0]: how many throws and jumps had passed over a catch when the evaluation began. *)
Variable c0 : nat.
Record B (st : state) : Prop := mkB {
  b_ge : (c0 <= d_leaked (s_dyn st))%nat;
  b_live : forall i, In i (d_live (s_dyn st)) -> (i < d_next (s_dyn st))%nat;
  b_catch : below (d_next (s_dyn st)) (d_catch (s_dyn st));
  b_ok : d_leaked (s_dyn st) = c0 -> NoDup (map fst (d_catch (s_dyn st))) /\
         forall i, In i (map fst (d_catch (s_dyn st))) -> In i (d_live (s_dyn st)) }.
Record later (st st' : state) : Prop := mkLater {
  l_n : (d_next (s_dyn st) <= d_next (s_dyn st'))%nat;
  l_l : (d_leaked (s_dyn st) <= d_leaked (s_dyn st'))%nat;
  l_live : forall i, In i (d_live (s_dyn st')) <-> In i (d_live (s_dyn st)) }.
Definition same_stack (st st' : state) : Prop := d_leaked (s_dyn st') = c0 -> d_catch (s_dyn st') = d_catch (s_dyn st).
Definition Qc (st : state) (o : ending) : Prop :=
  B st ->
  match o with
  | ERet st' | EJump _ st' => B st' /\ later st st' /\ same_stack st st'
  | EThrown id st' => B st' /\ later st st' /\ same_stack st st' /\
      (d_leaked (s_dyn st') = c0 -> In id (map fst (d_catch (s_dyn st'))))
  | EExit _ | ENone => True
  end.
Lemma later_refl st : later st st. Proof. split; auto. tauto. Qed.
Lemma later_trans a b c : later a b -> later b c -> later a c.
Proof. intros [A1 A2 A3] [B1 B2 B3]. split; try lia. intro i. rewrite B3. apply A3. Qed.
Ltac bl := repeat match goal with H : B _ |- _ => apply b_ge in H | H : later _ _ |- _ => destruct H end; cbn in *; lia.
Lemma stack_trans a b c : B b -> later b c -> same_stack a b -> same_stack b c -> same_stack a c.
Proof. intros b0 l H1 H2 Z. rewrite H2 by auto. apply H1. bl. Qed.
Lemma Qc_trans st st1 o : Qc st (ERet st1) -> Qc st1 o -> Qc st o.
Proof.
  intros H1 H2 b. destruct (H1 b) as (b1 & l1 & e1). specialize (H2 b1).
  destruct o as [s|j s|j s|s|]; auto.
  - destruct H2 as (? & ? & ?). eauto using later_trans, stack_trans.
  - destruct H2 as (? & ? & ? & ?). split; [auto|]. split; [eauto using later_trans|]. split; [eauto using stack_trans|auto].
  - destruct H2 as (? & ? & ?). eauto using later_trans, stack_trans.
Qed.
Definition same_catch (st st' : state) : Prop :=
  d_catch (s_dyn st') = d_catch (s_dyn st) /\ d_live (s_dyn st') = d_live (s_dyn st) /\
  d_leaked (s_dyn st') = d_leaked (s_dyn st) /\ (d_next (s_dyn st) <= d_next (s_dyn st'))%nat.
Lemma same_B st st' : same_catch st st' -> B st -> B st'.
Proof.
  intros (E1 & E2 & E3 & L) [b0 b1 b2 b3]. split; rewrite ?E1, ?E2, ?E3; auto.
  - intros i I. specialize (b1 i I). lia.
  - now apply (below_le _ _ _ b2).
Qed.
Lemma Qc_same st st' : same_catch st st' -> Qc st (ERet st').
Proof.
  intros H b. split; [eauto using same_B|]. destruct H as (E1 & E2 & E3 & L). split.
  - split; try lia. rewrite E2. tauto.
  - intros _. auto.
Qed.
Lemma find_handler_in live l key id : find_handler live l key = Handler id -> In id (map fst l).
Proof.
  induction l as [|[i t] l IH]; cbn; [discriminate|]. destruct (existsb _ _); [|discriminate].
  destruct (tags_match t key); [intros [= ->]; auto|]. auto.
Qed.
Lemma find_handler_live live l key : (forall i, In i (map fst l) -> In i live) -> find_handler live l key <> Dangling.
Proof.
  induction l as [|[i t] l IH]; cbn; [discriminate|]. intro H.
  assert (E : existsb (Nat.eqb i) live = true).
  { apply existsb_exists. exists i. split; [apply H; auto|apply Nat.eqb_refl]. }
  rewrite E. destruct (tags_match t key); [discriminate|]. apply IH. auto.
Qed.
Lemma in_remove_iff i k l : In i (remove Nat.eq_dec k l) <-> In i l /\ i <> k.
Proof. split; [apply in_remove|]. intros []. now apply in_in_remove. Qed.

Lemma Qc_handle h st tag : (forall k a, ok Qc (h k a)) -> B st ->
  let id := d_next (s_dyn st) in
  forall n w k a s, B s -> (S id <= d_next (s_dyn s))%nat -> (d_leaked (s_dyn st) <= d_leaked (s_dyn s))%nat ->
  (forall i, In i (d_live (s_dyn s)) <-> i = id \/ In i (d_live (s_dyn st))) ->
  (d_leaked (s_dyn s) = c0 -> d_catch (s_dyn s) = (id, tag) :: d_catch (s_dyn st)) ->
  match ending_of (handle n id w h k a s) with
  | ERet st' | EJump _ st' => B st' /\ later st st' /\ same_stack st st'
  | EThrown j st' => B st' /\ later st st' /\ same_stack st st' /\
      (d_leaked (s_dyn st') = c0 -> In j (map fst (d_catch (s_dyn st'))))
  | EExit _ | ENone => True
  end.
Proof.
  intros Hh b id. assert (NL : ~ In id (d_live (s_dyn st))) by (intro I; apply (b_live _ b) in I; unfold id in *; lia).
  induction n as [|n IH]; intros w k a s bs LN LL LV LC; [exact I|]. cbn [handle].
  set (s1 := note_catch w (pop_catch s)).
  assert (E1 : d_catch (s_dyn s1) = tl (d_catch (s_dyn s)) /\ d_live (s_dyn s1) = d_live (s_dyn s) /\
               d_leaked (s_dyn s1) = d_leaked (s_dyn s) /\ d_next (s_dyn s1) = d_next (s_dyn s)).
  { unfold s1, note_catch. destruct (list_eq_dec _ _ _); cbn; auto. }
  clearbody s1. destruct E1 as (Ec & El & Ek & En).
  assert (b1 : B s1).
  { destruct bs as [cg c1 c2 c3]. split; rewrite ?Ec, ?El, ?Ek, ?En; auto.
    - intros j v I. apply (c2 j v). destruct (d_catch (s_dyn s)); [destruct I | now right].
    - intro Z. destruct (c3 Z) as [d1 d2]. rewrite (LC Z) in *. cbn in *. inversion d1; subst. split; auto. }
  specialize (Hh k a s1 b1).
  assert (K : forall s2, B s2 -> later s1 s2 -> same_stack s1 s2 ->
    B (dead id s2) /\ later st (dead id s2) /\ same_stack st (dead id s2)).
  { intros s2 b2 l2 e2.
    assert (ST : d_leaked (s_dyn s2) = c0 -> d_catch (s_dyn s2) = d_catch (s_dyn st)).
    { intro Z. rewrite e2 by auto. rewrite Ec, LC by bl. reflexivity. }
    destruct l2 as [l2 l3 l4]. rewrite ?Ek, ?En, ?El in l2, l3. destruct b2 as [cg c1 c2 c3].
    split; [|split].
    - split; cbn; auto.
      + intros i I. apply in_remove_iff in I as [I _]. auto.
      + intro Z. destruct (c3 Z) as [c4 c5]. split; auto. intros i I. apply in_remove_iff. split; auto.
        rewrite ST in I by auto. apply in_map_iff in I as ((i', t') & <- & I). apply (b_catch _ b) in I. cbn. unfold id. lia.
    - split; cbn; try lia. intro i. rewrite in_remove_iff, l4, El, LV. split; [tauto|].
      intro I. split; auto. intro. subst. contradiction.
    - intro Z. cbn in Z |- *. auto. }
  destruct (h k a s1) as [v s2|j k2 a2 s2|j v s2|s2| | |]; cbn in Hh |- *; auto.
  - destruct Hh as (b2 & l2 & e2). auto.
  - destruct Hh as (b2 & l2 & e2 & i2). destruct (Nat.eqb_spec j id) as [-> |N].
    + assert (NZ : d_leaked (s_dyn s2) <> c0).
      { intro Z. specialize (i2 Z). rewrite e2, Ec in i2 by auto.
        rewrite LC in i2 by bl. cbn in i2.
        apply in_map_iff in i2 as ((i', t') & E & I). cbn in E. subst. apply (b_catch _ b) in I. unfold id in I. lia. }
      assert (LV2 := l_live _ _ l2). apply IH; auto.
      * destruct l2; lia.
      * destruct l2; lia.
      * intro i. rewrite LV2, El. apply LV.
      * intro; congruence.
    + cbn. destruct (K s2 b2 l2 e2) as (? & ? & ?). auto.
  - destruct Hh as (b2 & l2 & e2). auto.
Qed.

Lemma Qc_catching n tag b h : ok Qc b -> (forall k a, ok Qc (h k a)) -> ok Qc (catching n tag b h).
Proof.
  intros Hb Hh st B0. unfold catching.
  destruct (100 <=? _)%Z.
  { unfold err, throw. destruct (find_handler _ _ _) eqn:F; cbn; auto. split; [auto|]. split; [apply later_refl|].
    split; [intros _; auto|]. intros _. eapply find_handler_in; eauto. }
  set (id := d_next (s_dyn st)).
  assert (NL : ~ In id (d_live (s_dyn st))) by (intro I; apply (b_live _ B0) in I; unfold id in *; lia).
  assert (b1 : B (push_catch tag st)).
  { destruct B0 as [cg c1 c2 c3]. split; cbn; [lia|..].
    - intros i [<-|I]; [lia|]. specialize (c1 i I). lia.
    - now apply below_push.
    - intro Z. destruct (c3 Z) as [c4 c5]. split.
      + constructor; auto.
      + intros i [<-|I]; auto. }
  specialize (Hb _ b1). destruct (b (push_catch tag st)) as [v s|j k a s|j v s|s| | |]; cbn in Hb |- *; auto.
  + destruct Hb as (bs & [l1 l2 l3] & e1). cbn in l1, l2, l3.
    assert (ST : d_leaked (s_dyn s) = c0 -> tl (d_catch (s_dyn s)) = d_catch (s_dyn st)).
    { intro Z. rewrite e1 by auto. reflexivity. }
    destruct bs as [cg c1 c2 c3]. split; [|split].
    * split; cbn; auto.
      -- intros i I. apply in_remove_iff in I as [I _]. auto.
      -- intros i t I. apply (c2 i t). destruct (d_catch (s_dyn s)); [destruct I|now right].
      -- intro Z. destruct (b_ok _ B0) as [d1 d2]; [apply b_ge in B0; lia|]. rewrite ST by auto. split; auto.
         intros i I. apply in_remove_iff. specialize (d2 i I). split; [apply l3; auto|]. intro. subst. contradiction.
    * split; cbn; try lia. intro i. rewrite in_remove_iff, l3. fold id. split.
      -- intros [[?|?] ?]; auto. congruence.
      -- intro I. split; auto. intro. subst. contradiction.
    * intro Z. cbn in Z |- *. auto.
  + destruct Hb as (bs & [l1 l2 l3] & e1 & i1). cbn in l1, l2, l3. fold id in l1, l3.
    destruct (j =? id)%nat.
    * apply (Qc_handle h st tag Hh B0); auto. intro i. rewrite l3. intuition auto.
    * cbn. destruct bs as [cg c1 c2 c3]. split; [|split; [|split]].
      -- split; cbn; [lia| |exact c2|lia]. intros i I. apply in_remove_iff in I as [I _]. auto.
      -- split; cbn; try lia. intro i. rewrite in_remove_iff, l3. split.
         ++ intros [[?|?] ?]; auto. congruence.
         ++ intro I. split; auto. intro. subst. contradiction.
      -- intro Z. cbn in Z. lia.
      -- cbn. lia.
  + destruct Hb as (bs & [l1 l2 l3] & e1). cbn in l1, l2, l3. fold id in l1, l3. destruct bs as [cg c1 c2 c3]. split; [|split].
    * split; cbn; [lia| |exact c2|lia]. intros i I. apply in_remove_iff in I as [I _]. auto.
    * split; cbn; try lia. intro i. rewrite in_remove_iff, l3. split.
      ++ intros [[?|?] ?]; auto. congruence.
      ++ intro I. split; auto. intro. subst. contradiction.
    * intro Z. cbn in Z. lia.
Qed.
Theorem eval_catch prim n e x st : Qc st (ending_of (eval prim n e x st)).
Proof.
  apply ok_eval; clear.
  - intros. apply Qc_same. sw.
  - exact Qc_trans.
  - intros st b. exact I.
  - intros st key args b. unfold throw.
    destruct (find_handler _ _ _) eqn:F; cbn; auto. split; [auto|]. split; [apply later_refl|]. split; [intros _; auto|].
    intros _. eapply find_handler_in; eauto.
  - intros. apply Qc_same. sw.
  - intros. apply Qc_same. sw.
  - intros. apply Qc_same. sw.
  - intros. apply Qc_same. sw.
  - intros. apply Qc_same. sw.
  - intros. apply Qc_same. sw.
  - intros. apply Qc_same. sw.
  - intros i o b t a Hb Ht Ha. unfold winding.
    apply ok_bind; [exact Qc_trans|auto|intros _].
    apply ok_bind; [exact Qc_trans|intro s; apply Qc_same; sw|intros old].
    apply ok_bind; [exact Qc_trans|intro s; apply Qc_same; sw|intros _].
    apply ok_bind; [exact Qc_trans|auto|intros r].
    apply ok_bind; [exact Qc_trans|intro s; apply Qc_same; sw|intros _].
    apply ok_bind; [exact Qc_trans|auto|intros _]. intro s; apply Qc_same; sw.
  - intros f H st b. unfold with_cont.
    specialize (H (VCont (d_next (s_dyn st)) (s_cur st)) (push_cont st)).
    assert (NL : ~ In (d_next (s_dyn st)) (d_live (s_dyn st))) by (intro I; apply (b_live _ b) in I; lia).
    assert (b1 : B (push_cont st)).
    { destruct b as [cg c1 c2 c3]. split; cbn; [lia|..].
      - intros i [<-|I]; [lia|]. specialize (c1 i I). lia.
      - apply (below_le _ _ _ c2). lia.
      - intro Z. destruct (c3 Z). split; auto. }
    assert (K : forall s, B s -> later (push_cont st) s -> same_stack (push_cont st) s ->
      B (dead (d_next (s_dyn st)) s) /\ later st (dead (d_next (s_dyn st)) s) /\ same_stack st (dead (d_next (s_dyn st)) s)).
    { intros s bs [l1 l2 l3] e1. cbn in l1, l2, l3. destruct bs as [cg c1 c2 c3]. split; [|split].
      - split; cbn; auto.
        + intros i I. apply in_remove_iff in I as [I _]. auto.
        + intro Z. destruct (c3 Z) as [c4 c5]. split; auto. intros i I. apply in_remove_iff. split; auto.
          rewrite e1 in I by auto. cbn in I. apply in_map_iff in I as ((i', t') & <- & I). apply (b_catch _ b) in I. cbn. lia.
      - split; cbn; try lia. intro i. rewrite in_remove_iff, l3. split.
        + intros [[?|?] ?]; auto. congruence.
        + intro I. split; auto. intro. subst. contradiction.
      - intro Z. cbn in Z |- *. now apply e1. }
    specialize (H b1). destruct (f _ _) as [v s|j k a s|j v s|s| | |]; cbn in H |- *; auto.
    + destruct H as (? & ? & ?). auto.
    + destruct H as (? & ? & ? & ?). destruct (K s) as (? & ? & ?); auto.
    + destruct H as (? & ? & ?). destruct (K s) as (k1 & k2 & k3); auto.
      destruct (_ =? _)%nat; cbn; auto.
      split; [|split].
      * eapply same_B; [|exact k1]. sw.
      * destruct k2 as [q1 q2 q3]. split; auto.
      * exact k3.
  - intros. now apply Qc_catching.
  - intros ev k v Hg. unfold dynthrow.
    assert (N : forall A (f : state -> A), ok Qc (gets f)) by (intros A f s; apply Qc_same; sw).
    apply ok_bind; [exact Qc_trans|apply N|]. intros [w|]; [|intros s bb; exact I].
    apply ok_bind; [exact Qc_trans| |].
    2:{ intros _ s bb. destruct (existsb (Nat.eqb k) (d_live (s_dyn s))); cbn; auto. split; [auto|]. split; [apply later_refl|]. intros _; auto. }
    unfold rewind_to. apply ok_bind; [exact Qc_trans|apply N|]. intro cur. apply ok_bind; [exact Qc_trans| |intros _].
    { induction (to_unwind _ _) as [|i l IH]; cbn [run_outs]; [intro s; apply Qc_same; sw|].
      apply ok_bind; [exact Qc_trans|apply N|]. intro g. apply ok_bind; [exact Qc_trans| |intros _; apply IH].
      destruct g as [[? ?]|]; [apply Hg | intro s; apply Qc_same; sw]. }
    apply ok_bind; [exact Qc_trans|intro s; apply Qc_same; sw|]. intros _.
    induction (rev _) as [|i l IH]; cbn [run_ins]; [intro s; apply Qc_same; sw|].
    apply ok_bind; [exact Qc_trans|apply N|]. intro g. apply ok_bind; [exact Qc_trans| |intros _].
    { destruct g as [[? ?]|]; [apply Hg | intro s; apply Qc_same; sw]. }
    apply ok_bind; [exact Qc_trans|intro s; apply Qc_same; sw|intros _; apply IH].
Qed.
End Catch.
