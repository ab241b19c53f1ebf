(** More fuel never changes a result; there is always enough. *)
From Coq Require Import String Lia.
From Verif Require Import Base ParseModel ParseProofs EnvModel EnvSpec EnvProofs ModsysModel ModsysSpec ModsysProofs ModsysProofs2.
Local Open Scope string_scope.
Local Open Scope list_scope.
Notation "[ ]" := (@nil _) : list_scope.

(** * Fuel *)
Definition le {A} (r r' : outcome A) : Prop := r = OutOfFuel \/ r = r'.
Definition ops_le (o o' : ops) : Prop :=
  (forall n w, le (o_resolve o n w) (o_resolve o' n w)) /\ (forall m x w, le (o_search o m x w) (o_search o' m x w)).
Lemma le_refl {A} (r : outcome A) : le r r.
Proof. now right. Qed.
Lemma le_bind {A B} (r r' : outcome A) (f g : A -> world -> outcome B) :
  le r r' -> (forall a w, le (f a w) (g a w)) -> le (bind r f) (bind r' g).
Proof. intros [->|<-] H; [now left|]. destruct r; cbn; [apply H|now right|now right]. Qed.
Section Le.
Context (o o' : ops) (H : ops_le o o').
Lemma ref_var_le e x w : le (ref_var o e x w) (ref_var o' e x w).
Proof.
  unfold ref_var. destruct (env_exist _ _ _); [apply le_refl|]. destruct (search_entry _ _ _ _) as [[? ?]|]; [apply le_refl|].
  apply le_bind; [destruct (e_mod e); [apply H|apply le_refl]|]. intros [v|] w1; [apply le_refl|].
  apply le_bind; [apply H|]. intros; apply le_refl.
Qed.
Lemma value_of_le e r w : le (value_of o e r w) (value_of o' e r w).
Proof.
  destruct r; cbn [value_of]; [apply le_refl|]. destruct (_ =? _)%Z; [apply le_refl|].
  apply le_bind; [apply ref_var_le|]. intros; apply le_refl.
Qed.
Lemma export1_le m x w : le (export1 o m x w) (export1 o' m x w).
Proof.
  unfold export1. cbv zeta. destruct (ensure_pub _ _) as [p st2]. apply le_bind; [apply H|]. intros; apply le_refl.
Qed.
Lemma export_all_le m l : forall w, le (export_all o m l w) (export_all o' m l w).
Proof.
  induction l as [|[[]|] l IH]; intros w; cbn [export_all]; auto; [apply le_refl|]. apply le_bind; [apply export1_le|auto].
Qed.
Lemma re_export_all_le m l : forall w, le (re_export_all o m l w) (re_export_all o' m l w).
Proof.
  induction l as [|[[]|] l IH]; intros w; cbn [re_export_all]; auto; [apply le_refl|]. apply le_bind; [apply H|]. intros.
  apply le_bind; [apply export1_le|auto].
Qed.
Lemma use_all_le m l : forall w, le (use_all o m l w) (use_all o' m l w).
Proof.
  induction l as [|[a|[|a q]] l IH]; intros w; cbn [use_all]; auto; [apply le_refl|]. apply le_bind; [apply H|auto].
Qed.
Lemma do_opts_le m l : forall ex w, le (do_opts o m ex l w) (do_opts o' m ex l w).
Proof.
  remember (length l) as n eqn:N. revert l N. induction n as [n IH] using lt_wf_ind. intros l N ex w.
  destruct l as [|d l]; [apply le_refl|]. cbn in N.
  assert (G : forall ex w, le (do_opts o m ex l w) (do_opts o' m ex l w)) by (intros; eapply IH; [|reflexivity]; lia).
  assert (G2 : forall d2 l2 ex w, l = d2 :: l2 -> le (do_opts o m ex l2 w) (do_opts o' m ex l2 w)).
  { intros d2 l2 ex2 w2 ->. cbn in N. eapply IH; [|reflexivity]; lia. }
  destruct d as [[k|z|t]|q]; cbn [do_opts]; auto. destruct ex.
  - apply le_bind; [apply export1_le|auto].
  - destruct (beq k (bs "use-module")).
    { destruct l as [|[a|[|a q]] l2]; [apply le_refl|eapply G2; eauto|eapply G2; eauto|]. apply le_bind; [apply H|]. intros. eapply G2; eauto. }
    destruct (beq k (bs "export")); auto. destruct (beq k (bs "autoload")); auto.
    destruct l as [|[a|[|a q]] l2]; [apply le_refl|eapply G2; eauto|eapply G2; eauto|eapply G2; eauto].
Qed.
Lemma run_all_le1 e fs : (forall g, In g fs -> forall e w, le (run_form o e g w) (run_form o' e g w)) ->
  forall w, le (run_all o e fs w) (run_all o' e fs w).
Proof.
  induction fs as [|g fs IH]; intros Q w; cbn [run_all]; [apply le_refl|].
  apply le_bind; [apply Q; now left|]. intros. apply IH. intros. apply Q. now right.
Qed.
Lemma run_form_le f : forall e w, le (run_form o e f w) (run_form o' e f w).
Proof.
  induction f as [x r|x v|x r|x|n l|l|l|l|x r|x v|n|n|n x|n s| |fs IH] using form_ind2; intros e w; cbn [run_form]; cbv zeta; try apply le_refl.
  - apply le_bind; [apply value_of_le|]. intros; apply le_refl.
  - apply le_bind; [apply value_of_le|]. intros; apply le_refl.
  - apply le_bind; [apply value_of_le|]. intros; apply le_refl.
  - destruct n; [apply le_refl|]. destruct (named_module _ w). apply le_bind; [apply do_opts_le|]. intros; apply le_refl.
  - apply use_all_le.
  - apply export_all_le.
  - apply re_export_all_le.
  - apply le_bind; [apply value_of_le|]. intros; apply export1_le.
  - apply export1_le.
  - destruct n; [apply le_refl|]. apply le_bind; [apply H|]. intros; apply le_refl.
  - destruct n; [apply le_refl|]. apply le_bind; [apply H|]. intros; apply le_refl.
  - destruct n; [apply le_refl|]. apply le_bind; [apply H|]. intros. destruct (beq x _); [apply le_refl|].
    apply le_bind; [apply H|]. intros; apply le_refl.
  - destruct n; [apply le_refl|]. destruct s.
    + apply le_bind; [apply H|]. intros; apply le_refl.
    + apply le_bind; [apply H|]. intros. apply le_bind; [apply H|]. intros; apply le_refl.
  - rewrite Forall_forall in IH. destruct (make_env (w_st w) e) as [e1 st1].
    destruct (run_all_le1 e1 fs (fun g Hg => IH g Hg) (with_st w st1)) as [Q|Q].
    + left. change ((match run_all o e1 fs (with_st w st1) with Raised w1 => Done tt w1 | r => r end) = OutOfFuel). now rewrite Q.
    + right. change ((match run_all o e1 fs (with_st w st1) with Raised w1 => Done tt w1 | r => r end) =
                     (match run_all o' e1 fs (with_st w st1) with Raised w1 => Done tt w1 | r => r end)). now rewrite Q.
Qed.
Lemma resolve_body_le fs n w : le (resolve_body o fs n w) (resolve_body o' fs n w).
Proof.
  unfold resolve_body. destruct (reg_find n (w_reg w)); [apply le_refl|]. destruct (new_module (w_st w)) as [m st1]. cbv zeta.
  destruct (find_file fs (w_st w) n) as [[p body]|]; [|apply le_refl]. destruct (make_module_env st1 m g_env) as [e st2].
  destruct body as [|f body]; [apply le_refl|]. apply le_bind; [|intros; apply le_refl]. apply run_all_le1. intros. apply run_form_le.
Qed.
Lemma search_body_le m x w : le (search_body o m x w) (search_body o' m x w).
Proof.
  unfold search_body. destruct (mod_search _ _ _); [apply le_refl|]. destruct (take_auto _ _ _) as [[n r]|]; [|apply le_refl].
  apply le_bind; [apply H|]. intros. apply H.
Qed.
End Le.
Lemma sys_le fs n : ops_le (sys fs n) (sys fs (S n)).
Proof.
  induction n as [|n IH].
  - split; intros; now left.
  - split; intros; cbn [sys o_resolve o_search].
    + apply (resolve_body_le (sys fs n) (sys fs (S n)) IH).
    + apply (search_body_le (sys fs n) (sys fs (S n)) IH).
Qed.
Lemma top_le fs n f w : le (top fs n f w) (top fs (S n) f w).
Proof. apply run_form_le, sys_le. Qed.
Lemma top_more fs n k f w r : top fs n f w = r -> r <> OutOfFuel -> top fs (n + k) f w = r.
Proof.
  intros E N. induction k as [|k IH]; [now rewrite Nat.add_0_r|]. rewrite Nat.add_succ_r.
  destruct (top_le fs (n + k) f w) as [Q|Q]; congruence.
Qed.
Lemma resolve_more fs n k m w r : resolve fs n m w = r -> r <> OutOfFuel -> resolve fs (n + k) m w = r.
Proof.
  intros E N. induction k as [|k IH]; [now rewrite Nat.add_0_r|]. rewrite Nat.add_succ_r.
  destruct (proj1 (sys_le fs (n + k)) m w) as [Q|Q]; unfold resolve in *; congruence.
Qed.
Lemma search_more fs n k m x w r : search fs n m x w = r -> r <> OutOfFuel -> search fs (n + k) m x w = r.
Proof.
  intros E N. induction k as [|k IH]; [now rewrite Nat.add_0_r|]. rewrite Nat.add_succ_r.
  destruct (proj2 (sys_le fs (n + k)) m x w) as [Q|Q]; unfold search in *; congruence.
Qed.

(** * Termination *)
(* the module names a form may resolve, and the autoload options it contains *)
Fixpoint d_names (l : list datum) : list (list atom) :=
  match l with [] => [] | DList n :: r => n :: d_names r | _ :: r => d_names r end.
Fixpoint f_names (f : form) : list (list atom) :=
  match f with
  | FDefineModule n l => n :: d_names l
  | FUse l => d_names l
  | FResolve n | FEnter n | FModuleRef n _ => [n]
  | FModuleUse n s => [n; s]
  | FTry fs => (fix go (l : list form) := match l with [] => [] | g :: r => f_names g ++ go r end) fs
  | _ => []
  end.
Definition l_names : list form -> list (list atom) := fix go l := match l with [] => [] | g :: r => f_names g ++ go r end.
Fixpoint f_cost (f : form) : nat :=
  match f with
  | FDefineModule _ l => length l
  | FTry fs => (fix go (l : list form) := match l with [] => 0%nat | g :: r => (f_cost g + go r)%nat end) fs
  | _ => 0%nat
  end.
Definition l_cost : list form -> nat := fix go l := match l with [] => 0%nat | g :: r => (f_cost g + go r)%nat end.
Section Term.
Context (fs : list (list Z * list form)) (U : list (list atom)) (C : nat).
Context (HU : forall p b, In (p, b) fs -> forall n, In n (l_names b) -> In n U).
Context (HC : forall p b, In (p, b) fs -> (l_cost b <= C)%nat).
Definition unreg (w : world) (n : list atom) : bool := match reg_find n (w_reg w) with None => true | _ => false end.
Definition pot (w : world) : nat := ((1 + C) * length (filter (unreg w) U) + length (w_auto w))%nat.
Definition fits (w : world) : Prop := forall m n l, In (m, (n, l)) (w_auto w) -> In n U.
(* N: how much potential the calls may start with; c: how much may be added *)
Definition okt {A} (B : nat) (r : outcome A) : Prop :=
  match r with
  | Done _ w => fits w /\ (pot w <= B)%nat
  | Raised w => fits w /\ (pot w <= B)%nat
  | OutOfFuel => False
  end.
Lemma okt_bind {A B} b c (r : outcome A) (f : A -> world -> outcome B) : (b <= c)%nat ->
  okt b r -> (forall a w, fits w -> (pot w <= b)%nat -> okt c (f a w)) -> okt c (bind r f).
Proof.
  intros L H K. destruct r as [a w|w|]; cbn in *; [|destruct H; split; [auto|lia]|auto]. apply K; tauto.
Qed.
Definition ops_t (N : nat) (o : ops) : Prop :=
  (forall n w, In n U -> fits w -> (pot w < N)%nat -> okt (pot w) (o_resolve o n w)) /\
  (forall m x w, fits w -> (pot w < N)%nat -> okt (pot w) (o_search o m x w)).
Lemma okt_weak {A} b c (r : outcome A) : (b <= c)%nat -> okt b r -> okt c r.
Proof. intros L. destruct r; cbn; try tauto; intros [? ?]; split; auto; lia. Qed.
Section Ops.
Context (o : ops) (N : nat) (O : ops_t N o).
Lemma t_search m x w b : fits w -> (pot w <= b)%nat -> (b < N)%nat -> okt b (o_search o m x w).
Proof. intros F L1 L2. eapply okt_weak; [exact L1|]. apply O; auto. lia. Qed.
Lemma t_resolve n w b : In n U -> fits w -> (pot w <= b)%nat -> (b < N)%nat -> okt b (o_resolve o n w).
Proof. intros I F L1 L2. eapply okt_weak; [exact L1|]. apply O; auto. lia. Qed.
Lemma okt_here {A} (a : A) w b : fits w -> (pot w <= b)%nat -> okt b (Done a w).
Proof. intros; split; auto. Qed.
Lemma ref_var_t e x w b : fits w -> (pot w <= b)%nat -> (b < N)%nat -> okt b (ref_var o e x w).
Proof.
  intros F L1 L2. unfold ref_var. destruct (env_exist _ _ _); [now apply okt_here|].
  destruct (search_entry _ _ _ _) as [[? ?]|]; [now apply okt_here|].
  apply (okt_bind b); auto; [destruct (e_mod e); [now apply t_search|now apply okt_here]|]. intros [v|] w1 F1 P1; [now apply okt_here|].
  apply (okt_bind b); auto; [now apply t_search|]. intros [v|] w2 F2 P2; now apply okt_here.
Qed.
Lemma value_of_t e r w b : fits w -> (pot w <= b)%nat -> (b < N)%nat -> okt b (value_of o e r w).
Proof.
  intros F L1 L2. destruct r; cbn [value_of]; [now apply okt_here|]. destruct (_ =? _)%Z; [now apply okt_here|].
  apply (okt_bind b); auto; [now apply ref_var_t|]. intros [v|] w1 F1 P1; [now apply okt_here|split; auto].
Qed.
Lemma export1_t m x w b : fits w -> (pot w <= b)%nat -> (b < N)%nat -> okt b (export1 o m x w).
Proof.
  intros F L1 L2. unfold export1. cbv zeta. destruct (ensure_pub _ _) as [p st2].
  apply (okt_bind b); auto; [now apply t_search|]. intros [v|] w1 F1 P1; now apply okt_here.
Qed.
Lemma export_all_t m l b : forall w, fits w -> (pot w <= b)%nat -> (b < N)%nat -> okt b (export_all o m l w).
Proof.
  induction l as [|[[]|] l IH]; intros w F L1 L2; cbn [export_all]; auto; [now apply okt_here|].
  apply (okt_bind b); auto. now apply export1_t.
Qed.
Lemma re_export_all_t m l b : forall w, fits w -> (pot w <= b)%nat -> (b < N)%nat -> okt b (re_export_all o m l w).
Proof.
  induction l as [|[[]|] l IH]; intros w F L1 L2; cbn [re_export_all]; auto; [now apply okt_here|].
  apply (okt_bind b); auto; [now apply t_search|]. intros.
  apply (okt_bind b); auto. now apply export1_t.
Qed.
Lemma use_all_t m l b : (forall n, In n (d_names l) -> In n U) -> forall w, fits w -> (pot w <= b)%nat -> (b < N)%nat -> okt b (use_all o m l w).
Proof.
  induction l as [|[a|[|a q]] l IH]; intros HN w F L1 L2; cbn [use_all]; auto; [now apply okt_here|apply IH; auto; intros; apply HN; now right|].
  apply (okt_bind b); auto; [apply t_resolve; auto; apply HN; now left|]. intros u w1 F1 P1. apply IH; auto. intros; apply HN; now right.
Qed.
Lemma do_opts_t m l : forall ex w b, (forall n, In n (d_names l) -> In n U) -> fits w -> (pot w + length l <= b)%nat -> (b < N)%nat ->
  okt b (do_opts o m ex l w).
Proof.
  remember (length l) as n eqn:NL. revert l NL. induction n as [n IH] using lt_wf_ind. intros l NL ex w b HN F L1 L2.
  destruct l as [|d l]; [apply okt_here; auto; lia|]. cbn in NL.
  assert (G : forall ex w c, (forall n, In n (d_names l) -> In n U) -> fits w -> (pot w + length l <= c)%nat -> (c < N)%nat -> okt c (do_opts o m ex l w)).
  { intros. eapply IH; [|reflexivity|..]; auto; lia. }
  assert (G2 : forall d2 l2 ex w c, l = d2 :: l2 -> (forall n, In n (d_names l) -> In n U) -> fits w -> (pot w + length l2 <= c)%nat -> (c < N)%nat -> okt c (do_opts o m ex l2 w)).
  { intros d2 l2 ex2 w2 c -> HN2 ? ? ?. cbn in NL. eapply IH; [|reflexivity|..]; auto; [lia|]. intros k Hk. apply HN2. cbn. destruct d2; auto. now right. }
  assert (HN' : forall n, In n (d_names l) -> In n U). { intros k Hk. apply HN. cbn. destruct d; auto. now right. }
  assert (LB : (pot w + length l <= b)%nat) by lia.
  destruct d as [[k|z|t]|q]; cbn [do_opts]; auto. destruct ex.
  - apply (okt_bind (pot w)); [lia|apply export1_t; auto; lia|]. intros ? w1 F1 P1. apply G; auto. lia.
  - destruct (beq k (bs "use-module")).
    { destruct l as [|[a|[|a q]] l2]; cbn [length] in LB; [apply okt_here; auto; lia|eapply G2; eauto; lia|eapply G2; eauto; lia|].
      apply (okt_bind (pot w)); [lia|apply t_resolve; auto; [apply HN'; now left|lia]|]. intros u w1 F1 P1. eapply G2; eauto.
      change (pot (add_use m u w1)) with (pot w1). lia. }
    destruct (beq k (bs "export")); auto. destruct (beq k (bs "autoload")); auto.
    destruct l as [|[a|[|a q]] l2]; cbn [length] in LB; [apply okt_here; auto; lia|eapply G2; eauto; lia|eapply G2; eauto; lia|].
    eapply G2; eauto.
    + unfold add_auto. destruct (syms_of l2) as [|y1 ys1]; [exact F|]. intros m0 n0 l0 [[= <- <- <-]|Q]; [apply HN'; now left|eapply F; eauto].
    + assert (pot (add_auto m (a :: q) (syms_of l2) w) <= S (pot w))%nat; [|lia].
      unfold add_auto. destruct (syms_of l2); [lia|]. unfold pot, unreg. cbn [w_reg w_auto length]. lia.
Qed.
Lemma filter_le {A} (f g : A -> bool) l : (forall x, f x = true -> g x = true) -> (length (filter f l) <= length (filter g l))%nat.
Proof.
  intros H. induction l as [|x l IH]; cbn; [lia|]. destruct (f x) eqn:E; [rewrite (H _ E); cbn; lia|]. destruct (g x); cbn; lia.
Qed.
Lemma filter_lt {A} (f g : A -> bool) l y : (forall x, f x = true -> g x = true) -> In y l -> f y = false -> g y = true ->
  (S (length (filter f l)) <= length (filter g l))%nat.
Proof.
  intros H. induction l as [|x l IH]; cbn; [intros []|]. intros [->|I] F G.
  - rewrite F, G. cbn. assert (Q := filter_le f g l H). lia.
  - specialize (IH I F G). destruct (f x) eqn:E; [rewrite (H _ E); cbn; lia|]. destruct (g x); cbn; lia.
Qed.
Lemma unreg_cons n m w w' k : w_reg w' = (n, m) :: w_reg w -> unreg w' k = true -> unreg w k = true.
Proof. unfold unreg. intros ->. cbn. destruct (mname_eqb n k); [discriminate|auto]. Qed.
Lemma named_module_t n w : fits w -> let (m, w1) := named_module n w in fits w1 /\ (pot w1 <= pot w)%nat.
Proof.
  intros F. unfold named_module. destruct (reg_find n (w_reg w)); [auto|]. cbn [new_module]. split; [exact F|].
  unfold pot. cbn [w_auto]. apply Nat.add_le_mono_r, Nat.mul_le_mono_l, filter_le. intros k. eapply unreg_cons. reflexivity.
Qed.
Lemma run_all_t e l : (forall g, In g l -> forall e w b, (forall n, In n (f_names g) -> In n U) -> fits w -> (pot w + f_cost g <= b)%nat -> (b < N)%nat ->
    okt b (run_form o e g w)) ->
  forall w b, (forall n, In n (l_names l) -> In n U) -> fits w -> (pot w + l_cost l <= b)%nat -> (b < N)%nat -> okt b (run_all o e l w).
Proof.
  induction l as [|g l IH]; intros Q w b HN F L1 L2; cbn [run_all]; [apply okt_here; auto; cbn [l_cost] in L1; lia|].
  change (l_cost (g :: l)) with (f_cost g + l_cost l)%nat in L1. change (l_names (g :: l)) with (f_names g ++ l_names l) in HN.
  apply (okt_bind (pot w + f_cost g)%nat); [lia|apply Q; auto; [now left|intros; apply HN; apply in_or_app; auto|lia]|].
  intros ? w1 F1 P1. apply IH; auto; [intros; apply Q; auto; now right|intros; apply HN; apply in_or_app; auto|lia].
Qed.
Lemma run_form_t f : forall e w b, (forall n, In n (f_names f) -> In n U) -> fits w -> (pot w + f_cost f <= b)%nat -> (b < N)%nat ->
  okt b (run_form o e f w).
Proof.
  induction f as [x r|x v|x r|x|n l|l|l|l|x r|x v|n|n|n x|n s| |gs IH] using form_ind2; intros e w b HN F L1 L2;
    cbn [run_form]; cbv zeta; cbn [f_cost f_names] in HN, L1.
  - apply (okt_bind b); [lia|apply value_of_t; auto; lia|]. intros; apply okt_here; auto.
  - apply okt_here; auto. change (pot w <= b)%nat. lia.
  - apply (okt_bind b); [lia|apply value_of_t; auto; lia|]. intros; apply okt_here; auto.
  - apply (okt_bind b); [lia|apply (value_of_t e (RRef x)); auto; lia|]. intros; apply okt_here; auto.
  - destruct n as [|a n]; [split; auto; lia|]. assert (NM := named_module_t (a :: n) w F). destruct (named_module (a :: n) w) as [m w1].
    destruct NM as [F1 P1]. apply (okt_bind b); [lia|apply do_opts_t; auto; [intros; apply HN; now right|lia]|].
    intros; apply okt_here; auto.
  - apply use_all_t; auto. lia.
  - apply export_all_t; auto. lia.
  - apply re_export_all_t; auto. lia.
  - apply (okt_bind b); [lia|apply value_of_t; auto; lia|]. intros; apply export1_t; auto.
  - apply export1_t; auto. change (pot w <= b)%nat. lia.
  - destruct n as [|a n]; [split; auto; lia|]. apply (okt_bind b); [lia|apply t_resolve; auto; [apply HN; now left|lia]|]. intros; apply okt_here; auto.
  - destruct n as [|a n]; [split; auto; lia|]. apply (okt_bind b); [lia|apply t_resolve; auto; [apply HN; now left|lia]|]. intros; apply okt_here; auto.
  - destruct n as [|a n]; [split; auto; lia|]. apply (okt_bind b); [lia|apply t_resolve; auto; [apply HN; now left|lia]|]. intros m w1 F1 P1.
    destruct (beq x _); [apply okt_here; auto|]. apply (okt_bind b); [lia|apply t_search; auto|]. intros [v|] w2 F2 P2; [apply okt_here; auto|split; auto].
  - destruct n as [|a n]; [split; auto; lia|]. destruct s as [|c s].
    + apply (okt_bind b); [lia|apply t_resolve; auto; [apply HN; now left|lia]|]. intros; split; auto.
    + apply (okt_bind b); [lia|apply t_resolve; auto; [apply HN; now left|lia]|]. intros m w1 F1 P1.
      apply (okt_bind b); [lia|apply t_resolve; auto; apply HN; right; now left|]. intros; apply okt_here; auto.
  - split; auto. lia.
  - rewrite Forall_forall in IH. destruct (make_env (w_st w) e) as [e1 st1].
    change (okt b (match run_all o e1 gs (with_st w st1) with Raised w1 => Done tt w1 | r => r end)).
    assert (G : okt b (run_all o e1 gs (with_st w st1))).
    { apply run_all_t; auto. }
    destruct (run_all o e1 gs (with_st w st1)); auto.
Qed.
Lemma file_at_in l p b : file_at l p = Some b -> In (p, b) l.
Proof.
  induction l as [|[q c] l IH]; cbn; [discriminate|]. destruct (beq_spec q p) as [->|]; [intros [= ->]; auto|auto].
Qed.
Lemma find_file_in st n p b : find_file fs st n = Some (p, b) -> In (p, b) fs.
Proof.
  unfold find_file. destruct (search_path fs (load_dirs st) (path_of n)) as [[q c]|] eqn:E.
  - intros [= -> ->]. revert E. induction (load_dirs st) as [|v l IH]; cbn; [discriminate|]. destruct v; auto.
    destruct (file_at fs (in_dir s (path_of n))) eqn:Q; [|auto]. intros [= <- <-]. now apply file_at_in.
  - destruct (file_at fs (path_of n)) eqn:Q; [|discriminate]. intros [= <- <-]. now apply file_at_in.
Qed.
Lemma resolve_body_t n w : In n U -> fits w -> (pot w < S N)%nat -> okt (pot w) (resolve_body o fs n w).
Proof.
  intros I F L. unfold resolve_body. destruct (reg_find n (w_reg w)) eqn:R; [apply okt_here; auto|]. cbn [new_module]. cbv zeta.
  set (w1 := mkWorld _ ((n, length (s_mods (w_st w))) :: w_reg w) (w_auto w) (w_log w)).
  assert (P1 : (pot w1 + S C <= pot w)%nat).
  { unfold pot. change (w_auto w1) with (w_auto w).
    assert (Q : (S (length (filter (unreg w1) U)) <= length (filter (unreg w) U))%nat).
    { apply (filter_lt _ _ _ n); auto.
      - intros k. eapply unreg_cons. reflexivity.
      - unfold unreg, w1. cbn [w_reg reg_find]. now rewrite (proj2 (mname_eqb_eq n n) eq_refl).
      - unfold unreg. now rewrite R. }
    assert ((1 + C) * S (length (filter (unreg w1) U)) <= (1 + C) * length (filter (unreg w) U))%nat by (apply Nat.mul_le_mono_l; auto). lia. }
  destruct (find_file fs (w_st w) n) as [[p body]|] eqn:FF; [|apply okt_here; [exact F|change (pot w1 <= pot w)%nat; lia]].
  apply find_file_in in FF. cbn [make_module_env make_env].
  match goal with |- context [add_log ?u (EvLoad n p)] => set (w2 := add_log u (EvLoad n p)) end.
  assert (F2 : fits w2) by exact F. assert (P2 : (pot w2 + S C <= pot w)%nat) by exact P1.
  assert (Q := HC _ _ FF).
  destruct body as [|f body]; [split; auto; lia|].
  apply (okt_bind (pot w2 + C)%nat); [lia| |intros a w3 F3 P3; apply okt_here; [exact F3|change (pot w3 <= pot w)%nat; lia]].
  apply run_all_t; auto; [intros; now apply run_form_t|eapply HU; eauto|lia|lia].
Qed.
Lemma search_body_t m x w : fits w -> (pot w < S N)%nat -> okt (pot w) (search_body o m x w).
Proof.
  intros F L. unfold search_body. destruct (mod_search _ _ _); [apply okt_here; auto|].
  destruct (take_auto m x (w_auto w)) as [[n r]|] eqn:T; [|apply okt_here; auto].
  apply take_auto_sub in T. destruct T as (l1 & xs & l2 & TA & -> & _).
  set (w1 := mkWorld (w_st w) (w_reg w) (l1 ++ l2) (w_log w)).
  assert (P1 : (S (pot w1) <= pot w)%nat).
  { unfold pot, w1. cbn [w_auto]. rewrite TA, !app_length. cbn [length]. unfold unreg. cbn [w_reg]. lia. }
  assert (F1 : fits w1).
  { intros k n0 l0 Q. eapply F. rewrite TA. unfold w1 in Q. cbn [w_auto] in Q. apply in_app_or in Q. apply in_or_app. destruct Q; eauto. right. right. eauto. }
  apply (okt_bind (pot w1)); [lia| |].
  - apply t_resolve; auto; [|lia]. eapply F. rewrite TA. apply in_or_app. right. now left.
  - intros u w2 F2 P2. apply (okt_weak (pot w1)); [lia|]. apply t_search; auto. lia.
Qed.
End Ops.
Lemma sys_t N : ops_t N (sys fs N).
Proof.
  induction N as [|N IH].
  - split; intros; lia.
  - split; intros; cbn [sys o_resolve o_search]; [apply (resolve_body_t _ N IH)|apply (search_body_t _ N IH)]; auto.
Qed.
End Term.
Fixpoint all_names (fs : list (list Z * list form)) : list (list atom) :=
  match fs with [] => [] | (_, b) :: r => l_names b ++ all_names r end.
Fixpoint all_cost (fs : list (list Z * list form)) : nat :=
  match fs with [] => 0%nat | (_, b) :: r => (l_cost b + all_cost r)%nat end.
Lemma all_names_in fs p b : In (p, b) fs -> forall n, In n (l_names b) -> In n (all_names fs).
Proof.
  induction fs as [|[q c] fs IH]; [intros []|]. intros [[= -> ->]|H] n I; cbn; apply in_or_app; eauto.
Qed.
Lemma all_cost_le fs p b : In (p, b) fs -> (l_cost b <= all_cost fs)%nat.
Proof.
  induction fs as [|[q c] fs IH]; [intros []|]. intros [[= -> ->]|H]; cbn; [lia|]. apply IH in H. lia.
Qed.
Definition auto_names (w : world) : list (list atom) := map (fun s => fst (snd s)) (w_auto w).
Lemma top_terminates fs f w : exists n, top fs n f w <> OutOfFuel.
Proof.
  set (U := f_names f ++ auto_names w ++ all_names fs). set (C := all_cost fs).
  exists (S (pot U C w + f_cost f)). intros Q.
  assert (O : ops_t U C (S (pot U C w + f_cost f)) (sys fs (S (pot U C w + f_cost f)))).
  { apply sys_t.
    - intros p b H n Hn. unfold U. apply in_or_app. right. apply in_or_app. right. eapply all_names_in; eauto.
    - intros p b H. eapply all_cost_le; eauto. }
  assert (T := run_form_t _ _ _ _ O f g_env w (pot U C w + f_cost f)%nat). unfold top in Q. rewrite Q in T. cbn in T.
  apply T; try lia.
  - intros n Hn. unfold U. apply in_or_app. auto.
  - intros m n l H. unfold U. apply in_or_app. right. apply in_or_app. left. unfold auto_names. apply in_map_iff. exists (m, (n, l)). auto.
Qed.
Lemma resolve_terminates fs n w : exists k, resolve fs k n w <> OutOfFuel.
Proof.
  set (U := [n] ++ auto_names w ++ all_names fs). set (C := all_cost fs).
  exists (S (pot U C w)). intros Q.
  assert (O : ops_t U C (S (pot U C w)) (sys fs (S (pot U C w)))).
  { apply sys_t.
    - intros p b H k Hn. unfold U. apply in_or_app. right. apply in_or_app. right. eapply all_names_in; eauto.
    - intros p b H. eapply all_cost_le; eauto. }
  assert (T := proj1 O n w). unfold resolve in Q. rewrite Q in T. cbn [okt] in T.
  apply T; try lia.
  - now left.
  - intros m k l H. unfold U. apply in_or_app. right. apply in_or_app. left. unfold auto_names. apply in_map_iff. exists (m, (k, l)). auto.
Qed.
Lemma search_terminates fs m x w : exists k, search fs k m x w <> OutOfFuel.
Proof.
  set (U := auto_names w ++ all_names fs). set (C := all_cost fs).
  exists (S (pot U C w)). intros Q.
  assert (O : ops_t U C (S (pot U C w)) (sys fs (S (pot U C w)))).
  { apply sys_t.
    - intros p b H k Hn. unfold U. apply in_or_app. right. eapply all_names_in; eauto.
    - intros p b H. eapply all_cost_le; eauto. }
  assert (T := proj2 O m x w). unfold search in Q. rewrite Q in T. cbn [okt] in T.
  apply T; try lia.
  intros j k l H. unfold U. apply in_or_app. left. unfold auto_names. apply in_map_iff. exists (j, (k, l)). auto.
Qed.
