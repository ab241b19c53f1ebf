(** The catch stack when jumps stay inside catch bodies; computed executions. *)
From Coq Require Import String List ZArith Bool Lia.
From Verif Require Import MachModel MachSpec MachProofs MachProofs2.
Import ListNotations.
Local Open Scope string_scope.
Local Open Scope list_scope.
Local Open Scope nat_scope.

Lemma go_on_all b : forall n s s', go_on b n s = Some s' -> steps_all (fun s => b s = true) s s'.
Proof.
  induction n as [|n IH]; cbn; intros s s'; [intros [= <-]; constructor|]. destruct (b s) eqn:B; [|discriminate].
  destruct (step s) eqn:E; try discriminate. intro G. econstructor; eauto.
Qed.
Lemma no_mutation_ok s : no_mutation s = true -> ~ mutates s.
Proof. intros H (p & vs & E & P). unfold no_mutation in H. rewrite E in H. destruct P as [->| ->]; discriminate. Qed.
Lemma no_assignment_ok x s : no_assignment x s = true -> ~ assigns s x.
Proof. intros H (v & e & k & E & P). unfold no_assignment in H. rewrite E in H. destruct P as [P|P]; rewrite P, String.eqb_refl in H; discriminate. Qed.

(** ** catch frames *)
Fixpoint cids (k : list frame) : list nat := match k with [] => [] | FCatch id _ _ _ _ :: r => id :: cids r | _ :: r => cids r end.
Definition kok (n : nat) (k : list frame) : Prop := NoDup (cids k) /\ forall i, In i (cids k) -> i < n.
Record sync (s : mst) : Prop := {
  y_catch : m_catch s = bodies (m_stack s);
  y_under : m_under s = 0;
  y_stack : kok (m_next s) (m_stack s);
  y_conts : forall j k w, nth_error (m_conts s) j = Some (k, w) -> kok (m_next s) k }.
Lemma kok_S n k : kok n k -> kok (S n) k.
Proof. intros (A & B). split; auto. intros i Z. apply B in Z. lia. Qed.
Lemma unwind_cids : forall k id t h w k', unwind_to id k = Some (t, h, w, k') -> exists p b, k = p ++ FCatch id t h b w :: k' /\ ~ In id (cids p).
Proof.
  induction k as [|f k IH]; intros id t h w k'; cbn; [discriminate|].
  assert (G : (forall i a b c d, f = FCatch i a b c d -> i <> id) -> unwind_to id k = Some (t, h, w, k') -> exists p b, f :: k = p ++ FCatch id t h b w :: k' /\ ~ In id (cids p)).
  { intros D A. destruct (IH _ _ _ _ _ A) as (p & b & -> & N). exists (f :: p), b. split; auto. destruct f; auto. intros [Z|Z]; auto. eapply D; eauto. }
  destruct f; try (apply G; discriminate). destruct (Nat.eqb_spec id0 id) as [->|N].
  - intros [= -> -> -> ->]. exists [], body. split; auto.
  - apply G. intros. congruence.
Qed.
Lemma unwind_here p id t h b w k : ~ In id (cids p) -> unwind_to id (p ++ FCatch id t h b w :: k) = Some (t, h, w, k).
Proof.
  induction p as [|f p IH]; cbn; [rewrite Nat.eqb_refl; auto|]. intro N. destruct f; cbn in N; auto.
  destruct (Nat.eqb_spec id0 id); [subst; exfalso; auto|]. apply IH. auto.
Qed.
Lemma cids_app p k : cids (p ++ k) = cids p ++ cids k.
Proof. induction p as [|f p IH]; auto. destruct f; cbn; rewrite ?IH; auto. Qed.
Lemma bodies_app p k : bodies (p ++ k) = bodies p ++ bodies k.
Proof. induction p as [|f p IH]; auto. destruct f; cbn; rewrite ?IH; auto. destruct body; cbn; rewrite ?IH; auto. Qed.
Lemma bodies_split : forall k i r, bodies k = i :: r -> exists p t h w k', k = p ++ FCatch i t h true w :: k' /\ bodies p = [] /\ r = bodies k'.
Proof.
  induction k as [|f k IH]; intros i r; [discriminate|].
  assert (G : bodies k = i :: r -> bodies [f] = [] -> exists p t h w k', f :: k = p ++ FCatch i t h true w :: k' /\ bodies p = [] /\ r = bodies k').
  { intros A N. destruct (IH i r A) as (p & t & h & w & k' & -> & B & R). exists (f :: p), t, h, w, k'. split; auto. split; auto.
    change (f :: p) with ([f] ++ p). now rewrite bodies_app, N. }
  destruct f; cbn [bodies]; try (intro A; apply G; auto; fail). destruct body; [|intro A; apply G; auto].
  intros [= -> <-]. exists [], tag, h, ghost, k. auto.
Qed.
Lemma kok_suffix n p k : kok n (p ++ k) -> kok n k.
Proof.
  intros (A & B). rewrite cids_app in A, B. split; [|intros; apply B; apply in_or_app; auto]. clear B. induction (cids p); auto. inversion A; auto.
Qed.
Lemma covers_match t key : covers t key -> tag_match t key = true.
Proof. intros [->| ->]; cbn; auto. apply String.eqb_refl. Qed.
(* the innermost matching catch is the one that is found *)
Lemma find_top s key args p id t h w k : sync s -> m_stack s = p ++ FCatch id t h true w :: k -> bodies p = [] -> tag_match t key = true ->
  find_catch (m_catch s) (m_stack s) key = Found id t h w k /\ m_catch s = id :: bodies k /\ (args = args :> list mv).
Proof.
  intros [y1 y2 y3 y4] K B T. rewrite y1, K, bodies_app, B. cbn [app bodies find_catch].
  rewrite unwind_here, T; auto. rewrite K in y3. destruct y3 as (N & _). rewrite cids_app in N. cbn in N. apply NoDup_remove_2 in N. intro Z. apply N. apply in_or_app. auto.
Qed.
Lemma sync_step s s' : sync s -> stays_in_bodies s -> innermost_catches s -> step s = Next s' -> sync s'.
Proof.
  intros Y SB IC H. destruct (m_ctrl s) eqn:C.
  11: { (* throw *) unfold step in H. rewrite C in H. unfold throw_step in H.
    destruct (find_catch (m_catch s) (m_stack s) key) as [id t h w k'| |] eqn:F; try discriminate. injection H as <-.
    pose proof Y as [y1 y2 y3 y4]. destruct (bodies (m_stack s)) as [|i r] eqn:B; [rewrite y1 in F; discriminate|].
    destruct (bodies_split _ _ _ B) as (p & t1 & h1 & w1 & k1 & K & Bp & ->).
    destruct (find_top s key args p i t1 h1 w1 k1 Y K Bp (covers_match _ _ (IC _ _ _ _ _ _ _ _ C K Bp))) as (F' & Q & _). rewrite F in F'. injection F' as -> -> -> -> ->.
    constructor; cbn; rewrite ?y1; auto. rewrite K in y3. apply kok_suffix in y3. exact y3. }
  13: { (* jump *) unfold step in H. rewrite C in H. destruct (nth_error (m_conts s) k) as [[k' w]|] eqn:N; [|discriminate]. injection H as <-.
    destruct Y as [y1 y2 y3 y4]. constructor; cbn; auto; [rewrite y1; symmetry; eapply SB; eauto|eauto]. }
  all: destruct Y as [y1 y2 y3 y4]; clear SB IC; destruct s as [c k0 h cs ca u w g nx cr]; cbn [m_ctrl] in C; subst c; cbn [m_catch m_stack m_under m_next m_conts] in *; subst u.
  all: step_cases s H; cbn [bodies cids app] in *; try (constructor; cbn [m_catch m_stack m_under m_next m_conts go goh gow popped]; auto; fail).
  all: try (constructor; cbn [m_catch m_stack m_under m_next m_conts go goh gow]; auto;
       [intros j k1 w1 Z; apply nth_error_snoc_inv in Z; destruct Z as [Z|(-> & [= -> ->])]; [eapply y4; eauto|exact y3]]; fail).
  - (* catch returns *) constructor; cbn; auto. destruct y3 as (A & B). inversion A; subst. split; auto. intros i Z. apply B. right. exact Z.
  - (* after the handler *) constructor; cbn; auto. destruct y3 as (A & B). inversion A; subst. split; auto. intros i Z. apply B. right. exact Z.
  - (* catch entered *) constructor; cbn; auto.
    + destruct y3 as (A & B). split; cbn; [constructor; auto; intro Z; apply B in Z; lia|]. intros i [<-|Z]; auto. apply B in Z. lia.
    + intros j k1 w1 Z. apply kok_S. eauto.
Qed.
Lemma sync_start prog : sync (start prog).
Proof.
  constructor; cbn; auto; [split; [constructor|intros i []]|]. intros [|j]; discriminate.
Qed.
Lemma sync_run s s' : steps_all (fun s => stays_in_bodies s /\ innermost_catches s) s s' -> sync s -> sync s'.
Proof. induction 1 as [|s s1 s2 (A & B) E _ IH]; auto. intro Y. apply IH. eapply sync_step; eauto. Qed.
