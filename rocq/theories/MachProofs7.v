(** What a run keeps, from the invariant of memory. *)
From Coq Require Import String List ZArith Bool Lia.
From Verif Require Import MachModel MachSpec MachProofs MachProofs2 MachProofs3 MachProofs4 MachProofs5 MachProofs6.
Import ListNotations.
Local Open Scope string_scope.
Local Open Scope list_scope.
Local Open Scope nat_scope.

Lemma all_impl (P Q : mst -> Prop) s s' : (forall s, P s -> Q s) -> steps_all P s s' -> steps_all Q s s'.
Proof. intros H A. induction A; [constructor|]. econstructor; eauto. Qed.
Lemma inv_run s s' W : steps_all safe_arrival s s' -> inv W s -> exists W', ext W W' /\ inv W' s'.
Proof.
  intro H. revert W. induction H as [|s s1 s2 SA E _ IH]; intros W I1; [exists W; split; auto using ext_refl|].
  destruct (step_good W s s1 I1 SA E) as (W1 & X & I2 & _). destruct (IH W1 I2) as (W2 & X2 & I3). exists W2. split; auto. eapply ext_trans; eauto.
Qed.
Lemma inv_prog prog s : steps_all safe_arrival (start prog) s -> exists W, inv W s.
Proof. intro H. destruct (inv_run _ _ W0 H (inv_start prog)) as (W & _ & I1). eauto. Qed.
Lemma cells_run s s' W : steps_all (fun s => safe_arrival s /\ ~ mutates s) s s' -> inv W s -> cells_kept (aok W) (m_sto s) (m_sto s').
Proof.
  intro H. revert W. induction H as [|s s1 s2 (SA & M) E _ IH]; intros W I1; [intros a _; reflexivity|].
  destruct (step_good W s s1 I1 SA E) as (W1 & X & I2 & (Q & _)). destruct Q as [Q|Q]; [contradiction|].
  intros a A. rewrite (IH W1 I2); [now apply Q|now apply X].
Qed.
Lemma binds_run x s s' W : steps_all (fun s => safe_arrival s /\ ~ assigns s x) s s' -> inv W s -> forall e, eok W e -> binding (m_sto s') e x = binding (m_sto s) e x.
Proof.
  intro H. revert W. induction H as [|s s1 s2 (SA & M) E _ IH]; intros W I1 e Ee; auto.
  destruct (step_good W s s1 I1 SA E) as (W1 & X & I2 & (_ & Q)). destruct (Q e x Ee) as [Q1|Q1]; [contradiction|].
  rewrite (IH W1 I2); [auto|now apply X].
Qed.
Lemma look_kept W h h' : sok W h -> cells_kept (aok W) h h' -> forall n v, vok W v -> look n h v = look n h' v.
Proof.
  intros K C. induction n as [|n IH]; intros v V; auto. cbn [look]. destruct v as [a|a|ps r b e|p|j]; auto.
  rewrite (C a V). destruct (get_cell h a) as [c|] eqn:G; auto. rewrite (IH (c_data c)) by exact (s_data W h K a c G). f_equal.
  destruct (c_next c) as [b|] eqn:N; auto. f_equal. apply IH. exact (s_next W h K a c b G V N).
Qed.
(* parents *)
Definition ups_kept (h h' : store) : Prop := forall e f, nth_error (h_envs h) e = Some f -> exists f', nth_error (h_envs h') e = Some f' /\ e_up f' = e_up f.
Lemma ups_refl h : ups_kept h h. Proof. intros e f E. eauto. Qed.
Lemma ups_trans a b c : ups_kept a b -> ups_kept b c -> ups_kept a c.
Proof. intros A B e f E. destruct (A e f E) as (f1 & E1 & U1). destruct (B e f1 E1) as (f2 & E2 & U2). exists f2. split; auto. congruence. Qed.
Lemma ups_same h h' : h_envs h' = h_envs h -> ups_kept h h'.
Proof. intros E e f. rewrite E. eauto. Qed.
Lemma ups_put e x v h : ups_kept h (env_put e x v h).
Proof.
  intros e1 f1 E1. unfold env_put. destruct (nth_error (h_envs h) e) as [f|] eqn:E; [|eauto]. cbn. rewrite nth_upd, E.
  destruct (Nat.eqb_spec e1 e) as [->|]; eauto. rewrite E in E1. injection E1 as <-. eexists. split; [reflexivity|]. reflexivity.
Qed.
Lemma ups_set e x v h : ups_kept h (env_set e x v h).
Proof. unfold env_set. destruct (owner h e x); apply ups_put. Qed.
Lemma ups_alloc u h n h' : alloc_env u h = (n, h') -> ups_kept h h'.
Proof. intros [= <- <-] e f E. exists f. split; auto. cbn. rewrite nth_snoc. destruct (Nat.eqb_spec e (length (h_envs h))) as [->|]; auto. apply nth_lt in E. lia. Qed.
Lemma list_envs : forall vs h t h', alloc_list vs h = (t, h') -> h_envs h' = h_envs h.
Proof.
  induction vs as [|v vs IH]; cbn; intros h t h'; [intros [= <- <-]; auto|]. destruct (alloc_list vs h) as (t1, h1) eqn:E. intros [= <- <-]. cbn. eauto.
Qed.
Lemma cdr_envs v h n h' : cdr_cells v h = (n, h') -> h_envs h' = h_envs h.
Proof. destruct v as [[| | | |]| | | |]; intros [= <- <-]; reflexivity. Qed.
Lemma simple_envs p vs h v h' : simple_prim p vs h = Some (v, h') -> h_envs h' = h_envs h.
Proof.
  destruct p; cbn; try discriminate.
  - intros [= E]. eapply list_envs; eauto.
  - destruct vs as [|a [|b [|]]]; try discriminate. destruct (cdr_cells b h) as (n, h1) eqn:C. intros [= <- <-]. cbn. eapply cdr_envs; eauto.
  - destruct vs as [|[|a| | |] [|]]; try discriminate. destruct (get_cell h a); [intros [= <- <-]; auto|discriminate].
  - destruct vs as [|[|a| | |] [|]]; try discriminate. destruct (get_cell h a); [intros [= <- <-]; auto|discriminate].
  - destruct vs as [|[|a| | |] [|b [|]]]; try discriminate. destruct (get_cell h a); [intros [= <- <-]; auto|discriminate].
  - destruct vs as [|[|a| | |] [|b [|]]]; try discriminate. destruct (cdr_cells b h) as (n, h1) eqn:C. destruct (get_cell h1 a); [intros [= <- <-]|discriminate]. cbn. eapply cdr_envs; eauto.
  - destruct (ints vs); [intros [= <- <-]; auto|discriminate].
  - destruct (ints vs) as [[|x [|y [|]]]|]; try discriminate. intros [= <- <-]; auto.
  - destruct (ints vs) as [[|x [|y [|]]]|]; try discriminate. intros [= <- <-]; auto.
  - destruct vs as [|x [|]]; try discriminate. intros [= <- <-]; auto.
Qed.
Lemma bindv_ups : forall ps fe r vs ex h h', bind_values fe ps r vs ex h = Some h' -> ups_kept h h'.
Proof.
  induction ps as [|p ps IH]; intros fe r vs ex h h'; cbn.
  - destruct r as [y|].
    + destruct (alloc_list vs h) as (l, h1) eqn:A. intros [= <-]. eapply ups_trans; [|apply ups_put]. apply ups_same. eapply list_envs; eauto.
    + destruct vs; [intros [= <-]; apply ups_refl|discriminate].
  - destruct vs as [|v vs]; [destruct ex; [discriminate|]; destruct r; [intros [= <-]; apply ups_refl|discriminate]|].
    intro E. eapply ups_trans; [apply ups_put|eauto].
Qed.
Lemma arg_envs v h n h1 t : alloc_arg v h = (n, h1) -> h_envs (link_arg t n h1) = h_envs h.
Proof. intros [= <- <-]. destruct t as [t|]; auto. cbn. destruct (nth_error _ t) as [[w q]|]; auto. Qed.
Lemma cell_envs d h n h1 t : alloc_cell d None false h = (n, h1) -> h_envs (link_cell t n h1) = h_envs h.
Proof. intros [= <- <-]. now rewrite link_envs. Qed.
Lemma iter_envs p h i h1 : alloc_iter p h = (i, h1) -> h_envs h1 = h_envs h.
Proof. now intros [= <- <-]. Qed.
Lemma step_ups s s' : step s = Next s' -> ups_kept (m_sto s) (m_sto s').
Proof.
  intros H. destruct s as [c k h cs ca u w g nx cr]. step_cases s H; cbn [m_sto go goh gow popped]; try apply ups_refl;
    try (apply ups_put; fail); try (apply ups_set; fail); try (apply ups_same; eauto using arg_envs, cell_envs, iter_envs, simple_envs; fail);
    try (eapply ups_alloc; eauto; fail).
  all: try (eapply ups_trans; [eapply ups_alloc; eauto|eapply bindv_ups; eauto]; fail).
  all: apply ups_same; match goal with E : alloc_arg _ _ = _ |- _ => injection E as <- <- | E : alloc_cell _ _ _ _ = _ |- _ => injection E as <- <- end; try reflexivity.
  all: match goal with |- context [match ?q with _ => _ end] => destruct q as [q'|]; [|reflexivity] end; try (destruct q'); reflexivity.
Qed.
Lemma steps_all_steps P s s' : steps_all P s s' -> steps s s'.
Proof. induction 1; [constructor|]. econstructor; eauto. Qed.
Lemma steps_ups s s' : steps s s' -> ups_kept (m_sto s) (m_sto s').
Proof. induction 1; [apply ups_refl|]. eapply ups_trans; [|eassumption]. now apply step_ups. Qed.
(* a variable that is visible keeps its value *)
Lemma owner_kept W h h' x : sok W h -> ups_kept h h' -> (forall e, eok W e -> binding h' e x = binding h e x) ->
  forall n n' e o, n <= n' -> eok W e -> env_owner n (h_envs h) e x = Some o -> env_owner n' (h_envs h') e x = Some o /\ eok W o.
Proof.
  intros K U B. induction n as [|n IH]; intros n' e o L E; [discriminate|]. destruct n' as [|n']; [lia|]. cbn [env_owner].
  destruct (nth_error (h_envs h) e) as [f|] eqn:F; [|discriminate]. destruct (U e f F) as (f' & F' & Q). rewrite F'.
  pose proof (B e E) as Z. unfold binding in Z. rewrite F, F' in Z. rewrite Z, Q. destruct (assq x (e_binds f)); [intros [= <-]; auto|].
  destruct (e_up f) as [u|] eqn:Up; [|discriminate]. intro A. apply (IH n' u o); auto; [lia|]. exact (s_up W h K e f u F Up).
Qed.
Lemma get_kept W h h' e x v : sok W h -> ups_kept h h' -> length (h_envs h) <= length (h_envs h') -> (forall e, eok W e -> binding h' e x = binding h e x) -> eok W e ->
  env_get h e x = Some v -> env_get h' e x = Some v.
Proof.
  intros K U L B E. unfold env_get. destruct (owner h e x) as [o|] eqn:O; [|discriminate]. intro A. unfold owner in *.
  destruct (owner_kept W h h' x K U B _ (S (length (h_envs h'))) e o (le_n_S _ _ L) E O) as (O' & Eo). rewrite O'. now rewrite B.
Qed.
Lemma ups_len h h' : ups_kept h h' -> length (h_envs h) <= length (h_envs h').
Proof.
  intro U. destruct (h_envs h) as [|f l] eqn:E; [cbn; lia|]. assert (X : length l < length (h_envs h)) by (rewrite E; cbn; lia).
  destruct (nth_error (h_envs h) (length l)) as [g|] eqn:G; [|apply nth_error_None in G; lia].
  destruct (U _ _ G) as (g' & G' & _). apply nth_lt in G'. cbn. lia.
Qed.
