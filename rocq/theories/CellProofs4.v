(** Proofs about CellModel, continued: nodes made for a call. *)
From Coq Require Import String Lia.
From Verif Require Import Base ParseModel PrintModel EnvModel EvalModel CellModel CellSpec CellProofs CellProofs2 CellProofs3.
Local Open Scope string_scope.
Local Open Scope list_scope.

Lemma upd_len {A} (l : list A) : forall i x, length (upd l i x) = length l.
Proof. induction l as [|y l IH]; intros [|i] x; cbn; auto. Qed.
Lemma upd_other {A} (l : list A) : forall i j x, i <> j -> nth_error (upd l i x) j = nth_error l j.
Proof. induction l as [|y l IH]; intros [|i] [|j] x N; cbn; auto; try congruence. Qed.
Lemma post_upd X h a c : In a X -> bounded X h -> post (Some a) X h X (upd h a c).
Proof.
  intros I Bd. split.
  - intros b d S0 N. rewrite upd_other by congruence. exact N.
  - intros b H. exact H.
  - auto.
  - rewrite upd_len. lia.
  - intros b H. rewrite upd_len. auto.
Qed.
Lemma post_trans2 skip X h X1 h1 X2 h2 : post skip X h X1 h1 -> post None X1 h1 X2 h2 -> post skip X h X2 h2.
Proof.
  intros A B. split.
  - intros a c S0 H. apply (po_same _ _ _ _ _ B); [discriminate|]. apply (po_same _ _ _ _ _ A); [exact S0|exact H].
  - intros a H. apply (po_incl _ _ _ _ _ B), (po_incl _ _ _ _ _ A), H.
  - intros a H. destruct (po_new _ _ _ _ _ B _ H) as [H1|H1]; [now apply (po_new _ _ _ _ _ A)|]. right. pose proof (po_len _ _ _ _ _ A). lia.
  - pose proof (po_len _ _ _ _ _ A). pose proof (po_len _ _ _ _ _ B). lia.
  - apply B.
Qed.
Lemma sim_pre_skip {A B} (P : list nat -> list cell -> A -> B -> Prop) skip X h X1 h1 r o : post skip X h X1 h1 -> sim P None X1 h1 r o -> @sim A B P skip X h r o.
Proof.
  intros Q H E. specialize (H E). destruct (fst r); auto.
  - destruct H as (X2 & b2 & st2 & F1 & F2 & F3 & F4). exists X2, b2, st2. split; [exact F1|]. split; [eapply post_trans2; eauto|auto].
  - destruct H as (X2 & st2 & F1 & F2 & F3). exists X2, st2. split; [auto|]. split; [eapply post_trans2; eauto|auto].
  - destruct H as (X2 & st2 & fv & F1 & F2 & F3 & F4). exists X2, st2, fv. split; [auto|]. split; [eapply post_trans2; eauto|auto].
Qed.
(* the node of a new call: nothing else refers to it *)
Lemma own_step {A B} (P : list nat -> list cell -> A -> B -> Prop) skip X s st c (f : nat -> CM A) o : bounded X (cs_cells s) -> same_state X s st ->
  (forall n s1, n = length (cs_cells s) -> cs_cells s1 = cs_cells s ++ [c] -> post None X (cs_cells s) (n :: X) (cs_cells s1) -> same_state (n :: X) s1 st -> bounded (n :: X) (cs_cells s1) -> nth_error (cs_cells s1) n = Some c ->
     sim P (Some n) (n :: X) (cs_cells s1) (f n s1) o) ->
  @sim A B P skip X (cs_cells s) (cbind (alloc c) f s) o.
Proof.
  intros Bd S0 F. rewrite cbind_alloc. set (n := length (cs_cells s)). set (s1 := with_cells s (cs_cells s ++ [c])).
  assert (P1 : post None X (cs_cells s) (n :: X) (cs_cells s1)).
  { split.
    - intros a d _ N. unfold s1. cbn [with_cells cs_cells]. rewrite nth_error_app1; [exact N|]. eapply nth_lt; eauto.
    - intros a H. now right.
    - intros a [<-|H]; [right; unfold n; lia|now left].
    - unfold s1. cbn [with_cells cs_cells]. rewrite app_length. lia.
    - intros a [<-|H]; unfold s1; cbn [with_cells cs_cells]; rewrite app_length; cbn [length]; [unfold n; lia|]. specialize (Bd a H). lia. }
  assert (H : sim P (Some n) (n :: X) (cs_cells s1) (f n s1) o).
  { apply F; auto.
    - apply (state_mono None X s); [exact P1|discriminate|exact S0].
    - apply P1.
    - apply nth_new. }
  assert (W : forall X2 h2, post (Some n) (n :: X) (cs_cells s1) X2 h2 -> post skip X (cs_cells s) X2 h2).
  { intros X2 h2 Q. apply post_none. split.
    - intros a d _ N. apply (po_same _ _ _ _ _ Q); [|apply (po_same _ _ _ _ _ P1); [discriminate|exact N]]. intro Q0. assert (Q1 : n = a) by congruence. apply nth_lt in N. subst a. unfold n in N. lia.
    - intros a I. apply (po_incl _ _ _ _ _ Q). now right.
    - intros a I. destruct (po_new _ _ _ _ _ Q _ I) as [[<-|J]|J]; [right; unfold n; lia|now left|]. right. pose proof (po_len _ _ _ _ _ P1). lia.
    - pose proof (po_len _ _ _ _ _ P1). pose proof (po_len _ _ _ _ _ Q). lia.
    - apply Q. }
  clearbody n s1. intro E. specialize (H E). destruct (fst (f n s1)); auto.
  - destruct H as (X2 & b2 & st2 & F1 & F2 & F3 & F4). exists X2, b2, st2. auto.
  - destruct H as (X2 & st2 & F1 & F2 & F3). exists X2, st2. auto.
  - destruct H as (X2 & st2 & fv & F1 & F2 & F3 & F4). exists X2, st2, fv. auto 6.
Qed.

