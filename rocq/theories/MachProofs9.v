(** Wind chains again: what a jump needs is only that the in guards it calls end
    under the chain they began with. *)
From Coq Require Import String List ZArith Bool Lia.
From Verif Require Import MachModel MachSpec MachProofs.
Import ListNotations.
Local Open Scope string_scope.
Local Open Scope list_scope.
Local Open Scope nat_scope.

Section Stk.
Variable g : list (mv * mv * list nat).
Variable cs : list (list frame * list nat).
Definition fok (f : frame) : Prop :=
  match f with
  | FWindThunk _ _ old => coh g old
  | FDynOut j _ common _ => dynok cs j common
  | FDynIn j _ i ins => exists k tw, nth_error cs j = Some (k, tw) /\ exists w, tw = rev ins ++ i :: w
  | _ => True
  end.
Definition cok (c : ctrl) (w : list nat) : Prop :=
  match c with
  | CDynOut j _ common _ => dynok cs j common
  | CDynIn j _ ins => exists k tw, nth_error cs j = Some (k, tw) /\ tw = rev ins ++ w
  | CJump j _ => exists k, nth_error cs j = Some (k, w)
  | _ => True
  end.
Lemma unwind_fok id k : forall t h wc k', Forall fok k -> unwind_to id k = Some (t, h, wc, k') -> Forall fok k'.
Proof.
  induction k as [|f k IH]; [discriminate|]. intros t h wc k' W U. apply Forall_cons_iff in W. destruct W as (_ & W).
  destruct f; cbn in U; try (eapply IH; eauto; fail).
  destruct (Nat.eqb id0 id); [injection U as <- <- <- <-; auto|eauto].
Qed.
Lemma find_fok ca key : forall k id t h wc k', Forall fok k -> find_catch ca k key = Found id t h wc k' -> Forall fok k'.
Proof.
  induction ca as [|c ca IH]; [discriminate|]. intros k id t h wc k' W. cbn.
  destruct (unwind_to c k) as [[[[t1 h1] w1] k1]|] eqn:U; [|discriminate].
  destruct (tag_match t1 key); [|eauto]. intros [= <- <- <- <- <-]. eapply unwind_fok; eauto.
Qed.
End Stk.
Lemma fok_mono g x cs f : fok g cs f -> fok (g ++ [x]) cs f.
Proof. destruct f; cbn; auto. apply coh_mono. Qed.
Lemma fok_monoc g x cs f : fok g cs f -> fok g (cs ++ [x]) f.
Proof.
  destruct f; cbn; auto; unfold dynok; intros (k1 & w1 & E & D); exists k1, w1; (split; [now apply nth_error_snoc|exact D]).
Qed.
Definition wi (s : mst) : Prop :=
  coh (m_guards s) (m_wind s) /\ cok (m_conts s) (m_ctrl s) (m_wind s) /\ Forall (fok (m_guards s) (m_conts s)) (m_stack s) /\
  forall j k w, nth_error (m_conts s) j = Some (k, w) -> coh (m_guards s) w /\ Forall (fok (m_guards s) (m_conts s)) k.
Lemma wi_step s s' : wi s -> in_guard_neutral s -> step s = Next s' -> wi s'.
Proof.
  destruct s as [c k h cs ca u w g nx cr]. unfold wi, in_guard_neutral. intros P Q H.
  cbn [m_guards m_wind m_conts m_ctrl m_stack] in P, Q. destruct P as (P1 & P2 & P3 & P4).
  step_cases s H; cbn [m_guards m_wind m_conts m_ctrl m_stack go goh gow popped cok] in *;
    try (pose proof (Forall_inv P3) as P3a; pose proof (Forall_inv_tail P3) as P3b; cbn [fok] in P3a).
  all: try (split; [exact P1|]; split; [exact Logic.I|]; split; [|exact P4]; repeat (constructor; [exact Logic.I|]); assumption).
  all: try (split; [exact P1|]; split; [assumption|]; split; [|exact P4]; repeat (constructor; [exact Logic.I|]); assumption).
  all: try (split; [exact P1|]; split; [eapply dyn_start; eauto; eapply P4; eauto|]; split; [|exact P4]; assumption).
  all: idtac.
  - (* capture *) split; [exact P1|]. split; [exact Logic.I|]. split; [eapply Forall_impl; [|exact P3b]; intro; apply fok_monoc|].
    intros j k1 w1 E. apply nth_error_snoc_inv in E.
    destruct E as [E|(-> & [= -> ->])].
    + apply P4 in E. destruct E as (E1 & E2). split; auto. eapply Forall_impl; [|exact E2]; intro; apply fok_monoc.
    + split; auto. eapply Forall_impl; [|exact P3b]; intro; apply fok_monoc.
  - (* entered *) split; [|split; [exact Logic.I|split]].
    + cbn. split; [|now apply coh_mono]. exists i, o. rewrite nth_error_app2, Nat.sub_diag; auto.
    + constructor; [cbn; now apply coh_mono|]. eapply Forall_impl; [|exact P3b]; intro; apply fok_mono.
    + intros j k1 w1 E. apply P4 in E. destruct E as (E1 & E2). split; [now apply coh_mono|]. eapply Forall_impl; [|exact E2]; intro; apply fok_mono.
  - (* thunk returned *) split; [exact P3a|]. split; [exact Logic.I|]. split; [|exact P4]. repeat (constructor; [exact Logic.I|]); assumption.
  - (* in guard returned *) destruct P3a as (k1 & tw & E & w1 & ->). destruct (P4 _ _ _ E) as (C & _). apply coh_app in C.
    destruct C as ((a & b & G) & C). specialize (Q _ _ _ _ _ _ _ _ _ eq_refl eq_refl G). subst w1.
    split; [split; [eauto|exact C]|]. split; [|split; [exact P3b|exact P4]]. eexists _, _. split; [exact E|reflexivity].
  - (* throw *) split; [exact P1|]. split; [exact Logic.I|]. split; [|exact P4]. constructor; [exact Logic.I|]. eapply find_fok; eauto.
  - (* throw *) split; [exact P1|]. split; [exact Logic.I|]. split; [|exact P4]. constructor; [exact Logic.I|]. eapply find_fok; eauto.
  - (* out guards done *) destruct P2 as (k1 & tw & E & D). rewrite Heqo in E. injection E as -> ->.
    destruct (P4 _ _ _ Heqo) as (C & W). split; [|split; [|split; [exact P3|exact P4]]].
    + destruct D as [-> | ->]; cbn; auto.
    + exists k1, tw. split; [exact Heqo|]. rewrite rev_involutive.
      destruct D as [-> | ->]; cbn; [now rewrite app_nil_r|]. now rewrite skipn_all.
  - (* out guard called *) split; [exact P1|]. split; [exact Logic.I|]. split; [|exact P4]. constructor; [exact P2|exact P3].
  - (* in guards done *) destruct P2 as (k1 & tw & E & ->). split; [exact P1|]. split; [|split; [exact P3|exact P4]]. exists k1. exact E.
  - (* next in guard *) destruct P2 as (k1 & tw & E & ->). split; [exact P1|]. split; [exact Logic.I|]. split; [|exact P4]. constructor; [|exact P3].
    exists k1. eexists. split; [exact E|]. exists w. cbn. rewrite <- app_assoc. reflexivity.
  - (* jump *) split; [exact P1|]. split; [exact Logic.I|]. split; [|exact P4]. eapply P4; eauto.
Qed.
Lemma wi_start prog : wi (start prog).
Proof. unfold wi. cbn. repeat split; auto; destruct j; discriminate. Qed.
