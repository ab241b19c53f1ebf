(** Invariants of the machine: wind chains. *)
From Coq Require Import String List ZArith Bool Lia.
From Verif Require Import MachModel MachSpec.
Import ListNotations.
Local Open Scope string_scope.
Local Open Scope list_scope.
Local Open Scope nat_scope.

Lemma steps_trans s1 s2 s3 : steps s1 s2 -> steps s2 s3 -> steps s1 s3.
Proof. induction 1; auto. intro. econstructor; eauto. Qed.
Lemma steps_one s s' : step s = Next s' -> steps s s'.
Proof. intro. econstructor; [eauto|constructor]. Qed.
(* an invariant *)
Lemma steps_ind_inv (P : mst -> Prop) : (forall s s', P s -> step s = Next s' -> P s') -> forall s s', steps s s' -> P s -> P s'.
Proof. induction 2; eauto. Qed.
Lemma reach_ind (P : mst -> Prop) : (forall prog, P (start prog)) -> (forall s s', P s -> step s = Next s' -> P s') -> forall s, reachable s -> P s.
Proof. intros A B s (p & H). eapply steps_ind_inv; eauto. Qed.

(** every case of a step *)
Ltac cases_in H :=
  repeat match type of H with
  | context [match ?x with _ => _ end] => destruct x eqn:?; try discriminate H
  end.
Ltac step_cases s H :=
  unfold step, eval_step, app_step, apply_step, vals_step, func_step, throw_step, ret_step, dynthrow, errork in H;
  cbn [m_ctrl m_stack m_sto m_conts m_catch m_under m_wind m_guards m_next m_crossed] in H;
  cases_in H; try discriminate H; injection H as <-; subst.

(** ** continuations are never changed *)
Lemma step_conts s s' : step s = Next s' -> m_conts s' = m_conts s \/ exists c, m_conts s' = m_conts s ++ [c].
Proof.
  destruct s as [c k h cs ca u w g nx cr]. intro H. step_cases s H; cbn; eauto.
Qed.
Lemma nth_error_snoc {A} (l : list A) x i y : nth_error l i = Some y -> nth_error (l ++ [x]) i = Some y.
Proof. intro H. rewrite nth_error_app1; auto. apply nth_error_Some. congruence. Qed.
Lemma nth_error_snoc_inv {A} (l : list A) x i y : nth_error (l ++ [x]) i = Some y -> nth_error l i = Some y \/ (i = length l /\ y = x).
Proof.
  intro H. destruct (Nat.lt_ge_cases i (length l)) as [L|L].
  - rewrite nth_error_app1 in H; auto.
  - rewrite nth_error_app2 in H; auto. destruct (i - length l) as [|n] eqn:E; [|destruct n; discriminate].
    cbn in H. injection H as <-. right. split; auto. lia.
Qed.
Lemma conts_stay s s' j c : steps s s' -> nth_error (m_conts s) j = Some c -> nth_error (m_conts s') j = Some c.
Proof.
  intros H. revert j c. induction H as [|s s1 s2 H _ IH]; auto. intros j c E. apply IH.
  destruct (step_conts _ _ H) as [-> | (x & ->)]; auto. now apply nth_error_snoc.
Qed.

(** ** wind chains *)
Section Chains.
Variable g : list (mv * mv * list nat).
Fixpoint coh (w : list nat) : Prop :=
  match w with [] => True | i :: r => (exists a b, nth_error g i = Some (a, b, r)) /\ coh r end.
Variable cs : list (list frame * list nat).
Definition dynok (j : nat) (common : list nat) : Prop :=
  exists k w, nth_error cs j = Some (k, w) /\ (common = [] \/ common = w).
Fixpoint ww (k : list frame) (w : list nat) : Prop :=
  match k with
  | [] => w = []
  | FWindThunk _ _ old :: r => (exists i, w = i :: old) /\ ww r old
  | FCatch _ _ _ _ wc :: r => w = wc /\ ww r w
  | FDynOut j _ common _ :: r => dynok j common /\ ww r w
  | FDynIn j _ i ins :: r =>
      (exists k tw, nth_error cs j = Some (k, tw) /\ tw = rev ins ++ i :: w) /\ exists w', coh w' /\ ww r w'
  | _ :: r => ww r w
  end.
Definition cw (c : ctrl) (k : list frame) (w : list nat) : Prop :=
  match c with
  | CDynOut j _ common _ => dynok j common /\ ww k w
  | CDynIn j _ ins => (exists k tw, nth_error cs j = Some (k, tw) /\ tw = rev ins ++ w) /\ exists w', coh w' /\ ww k w'
  | CJump j _ => exists k, nth_error cs j = Some (k, w)
  | _ => ww k w
  end.
Lemma unwind_ww id k : forall w t h wc k', coh w -> ww k w -> unwind_to id k = Some (t, h, wc, k') -> coh wc /\ ww k' wc.
Proof.
  induction k as [|f k IH]; [discriminate|]. intros w t h wc k' C W U.
  destruct f; cbn in W, U; try (eapply IH; eauto; fail).
  - destruct W as ((i & ->) & W). cbn in C. destruct C as (_ & C). eauto.
  - destruct W as (_ & W). eauto.
  - destruct W as (_ & w' & C' & W). eauto.
  - destruct W as (-> & W). destruct (Nat.eqb id0 id); [injection U as <- <- <- <-; auto|eauto].
Qed.
(* chains with the same head are the same *)
Lemma coh_head a b : coh a -> coh b -> common_prefix a b = [] \/ a = b.
Proof.
  destruct a as [|x a]; [left; reflexivity|]. destruct b as [|y b]; [left; reflexivity|].
  intros ((p & q & E) & _) ((p' & q' & E') & _). cbn. destruct (Nat.eqb_spec x y) as [->|N]; [|left; reflexivity].
  right. rewrite E in E'. injection E' as _ _ ->. reflexivity.
Qed.
Lemma common_self a : common_prefix a a = a.
Proof. induction a; cbn; auto. rewrite Nat.eqb_refl. now f_equal. Qed.
End Chains.
Lemma coh_mono g x w : coh g w -> coh (g ++ [x]) w.
Proof. induction w as [|i w IH]; cbn; auto. intros ((a & b & E) & C). split; auto. exists a, b. now apply nth_error_snoc. Qed.
Lemma ww_mono g x cs k : forall w, ww g cs k w -> ww (g ++ [x]) cs k w.
Proof.
  induction k as [|f k IH]; auto. intros w H. destruct f; cbn in *; auto; try (destruct H as (H1 & H2); split; auto; fail).
  destruct H as (H1 & w' & C & H2). split; auto. exists w'. split; auto. now apply coh_mono.
Qed.
Lemma ww_monoc g x cs k : forall w, ww g cs k w -> ww g (cs ++ [x]) k w.
Proof.
  induction k as [|f k IH]; auto. intros w H. destruct f; cbn in *; auto; try (destruct H as (H1 & H2); split; auto; fail).
  - destruct H as ((k1 & w1 & E & D) & H). split; auto. exists k1, w1. split; auto. now apply nth_error_snoc.
  - destruct H as ((k1 & w1 & E & D) & w' & C & H). split; [exists k1, w1; split; auto; now apply nth_error_snoc|]. exists w'. auto.
Qed.
Definition wind_inv (s : mst) : Prop := m_crossed s = false ->
  coh (m_guards s) (m_wind s) /\ cw (m_guards s) (m_conts s) (m_ctrl s) (m_stack s) (m_wind s) /\
  forall j k w, nth_error (m_conts s) j = Some (k, w) -> coh (m_guards s) w /\ ww (m_guards s) (m_conts s) k w.
Lemma coh_app g a b : coh g (a ++ b) -> coh g b.
Proof. induction a as [|x a IH]; cbn; auto. intros (_ & C). auto. Qed.
Lemma dyn_start g cs j k tw w : nth_error cs j = Some (k, tw) -> coh g w -> coh g tw -> dynok cs j (common_prefix w tw).
Proof. intros E C D. exists k, tw. split; auto. destruct (coh_head g w tw C D) as [H | ->]; auto. rewrite common_self. auto. Qed.
Lemma find_ww g cs ca key : forall k w id t h wc k', coh g w -> ww g cs k w -> find_catch ca k key = Found id t h wc k' -> coh g wc /\ ww g cs k' wc.
Proof.
  induction ca as [|c ca IH]; [discriminate|]. intros k w id t h wc k' C W. cbn.
  destruct (unwind_to c k) as [[[[t1 h1] w1] k1]|] eqn:U; [|discriminate].
  destruct (tag_match t1 key); [|eauto]. intros [= <- <- <- <- <-]. eapply unwind_ww; eauto.
Qed.
Lemma wind_step s s' : wind_inv s -> step s = Next s' -> wind_inv s'.
Proof.
  destruct s as [c k h cs ca u w g nx cr]. intros P H. unfold wind_inv in *. cbn [m_crossed m_guards m_wind m_conts m_ctrl m_stack] in P.
  step_cases s H; cbn [m_crossed m_guards m_wind m_conts m_ctrl m_stack go goh gow popped] in *;
    try (intro N; specialize (P N); destruct P as (P1 & P2 & P3); cbn in P2; split; [exact P1|split; [exact P2|exact P3]]; fail).
  all: intro N. all: try (apply orb_false_elim in N; destruct N as (N & N')). all: specialize (P N); destruct P as (P1 & P2 & P3); cbn [cw ww] in P2.
  all: try (destruct P2 as (P2a & P2); split; [exact P1|split; [exact P2|exact P3]]; fail).
  all: try (split; [exact P1|]; split; [|exact P3]; cbn; split; [|exact P2]; eapply dyn_start; eauto; eapply P3; eauto; fail).
  all: try (split; [exact P1|]; split; [|exact P3]; cbn [cw ww]; tauto).
  - (* capture *) split; [exact P1|]. split; [now apply ww_monoc|]. intros j k1 w1 E. apply nth_error_snoc_inv in E.
    destruct E as [E|(-> & [= -> ->])]; [apply P3 in E; destruct E; split; auto; now apply ww_monoc|split; auto; now apply ww_monoc].
  - (* dynamic-wind entered *) split; [|split].
    + cbn. split; [|now apply coh_mono]. exists i, o. rewrite nth_error_app2, Nat.sub_diag; auto.
    + cbn. split; eauto. now apply ww_mono.
    + intros j k1 w1 E. apply P3 in E. destruct E. split; [now apply coh_mono|now apply ww_mono].
  - (* thunk returned *) destruct P2 as ((i & ->) & P2). cbn in P1. destruct P1 as (_ & P1). split; [exact P1|]. split; [exact P2|exact P3].
  - (* in guard returned *) destruct P2 as ((k1 & tw & E & ->) & P2). split; [|split; [|exact P3]].
    + apply P3 in E. destruct E as (C & _). now apply coh_app in C.
    + split; [|exact P2]. eexists _, _. split; [exact E|reflexivity].
  - (* throw *) destruct (find_ww g cs _ _ _ _ _ _ _ _ _ P1 P2 Heqs) as (C & W). split; [exact C|]. split; [split; [reflexivity|exact W]|exact P3].
  - discriminate N'.
  - (* out guards done *) destruct P2 as ((k1 & tw & E & D) & P2). rewrite Heqo in E. injection E as -> ->.
    destruct (P3 _ _ _ Heqo) as (C & W). split; [|split; [|exact P3]].
    + destruct D as [-> | ->]; cbn; auto.
    + split; [|eauto]. exists k1, tw. split; [exact Heqo|]. rewrite rev_involutive.
      destruct D as [-> | ->]; cbn; [now rewrite app_nil_r|]. now rewrite skipn_all.
  - (* in guards done *) destruct P2 as ((k1 & tw & E & ->) & P2). split; [exact P1|]. split; [|exact P3]. exists k1. exact E.
  - (* next in guard *) destruct P2 as ((k1 & tw & E & ->) & P2). split; [exact P1|]. split; [|exact P3]. split; [|exact P2].
    exists k1. eexists. split; [exact E|]. cbn. rewrite <- app_assoc. reflexivity.
  - (* jump *) destruct P2 as (k1 & E). rewrite Heqo in E. injection E as -> ->. split; [exact P1|]. split; [|exact P3]. eapply P3; eauto.
Qed.
Lemma wind_start prog : wind_inv (start prog).
Proof. intros _. cbn. repeat split; auto; intros; destruct j; discriminate. Qed.
Lemma wind_reach s : reachable s -> wind_inv s.
Proof. apply reach_ind; [exact wind_start|exact wind_step]. Qed.
(* no throw is un-noted *)
Lemma crossed_step s s' : step s = Next s' -> m_crossed s = true -> m_crossed s' = true.
Proof.
  destruct s as [c k h cs ca u w g nx cr]. intros H. step_cases s H; cbn; auto. all: intros ->; reflexivity.
Qed.
