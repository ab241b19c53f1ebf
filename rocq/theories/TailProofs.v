(** Proofs for C219: counting the frames of eval_with_env gives the outcomes of
    EvalModel.eval. *)
From Coq Require Import String Lia.
From Verif Require Import Base ParseModel PrintModel EnvModel EvalModel EvalMono TailModel.
Local Open Scope Z_scope.
Local Open Scope list_scope.

Section P.
Variable prim : list Z -> list val -> pres.
Lemma mle_trans {A} (a b c : EM A) : mle a b -> mle b c -> mle a c.
Proof. intros X Y st. destruct (X st) as [E|E]; [now left|]. rewrite E. apply Y. Qed.

(* one turn of a frame against one step of the evaluator *)
Definition turn (N : nat) (call entry : env -> val -> EM val) (e : env) (x : val) : EM val :=
  match x with
  | VList (VSym s :: t) d =>
      let! hv := gets (fun st => head_value st e s) in
      match hv with
      | Some (VMacro _ _ _ _) => step prim call N e x
      | _ =>
          match form_of s with
          | Some FIf => deep_if call entry e t
          | Some _ => step prim call N e x
          | None => let! v := (match hv with Some v => ret v | None => lookup e s end) in
              entry e (VList (v :: t) (match t with [] => false | _ => d end))
          end
      end
  | VList (VList h hd :: t) d => let! f := call e (VList h hd) in entry e (VList (f :: t) (match t with [] => false | _ => d end))
  | _ => step prim call N e x
  end.
Lemma one_frame_S N call g e x : one_frame prim N call (S g) e x = turn N call (one_frame prim N call g) e x.
Proof. reflexivity. Qed.
Lemma mle_if c en c' en' e args : (forall e x, mle (c e x) (c' e x)) -> (forall e x, mle (en e x) (en' e x)) ->
  mle (deep_if c en e args) (deep_if c' en' e args).
Proof.
  intros C E. unfold deep_if. destruct args as [|t [|y r]]; [apply mle_refl| |].
  - apply mle_bind; [apply C|]. intros p. apply mle_refl.
  - apply mle_bind; [apply C|]. intros p. destruct (truthy p); [apply E|]. destruct r; [apply mle_refl|apply E].
Qed.
Lemma mle_turn N N' c en c' en' e x : (N <= N')%nat -> (forall e x, mle (c e x) (c' e x)) -> (forall e x, mle (en e x) (en' e x)) ->
  mle (turn N c en e x) (turn N' c' en' e x).
Proof.
  intros L C E. assert (ST : forall y, mle (step prim c N e y) (step prim c' N' e y)) by (intros; now apply m_step).
  unfold turn. destruct x as [| | | | | | |l d| | | | | | |]; try apply ST. destruct l as [|h t]; [apply ST|]. destruct h; try apply ST.
  - apply mle_bind; [apply mle_refl|]. intros hv.
    assert (K : mle (match form_of n with
          | Some FIf => deep_if c en e t
          | Some _ => step prim c N e (VList (VSym n :: t) d)
          | None => ebind (match hv with Some v => ret v | None => lookup e n end) (fun v =>
              en e (VList (v :: t) (match t with [] => false | _ => d end))) end)
        (match form_of n with
          | Some FIf => deep_if c' en' e t
          | Some _ => step prim c' N' e (VList (VSym n :: t) d)
          | None => ebind (match hv with Some v => ret v | None => lookup e n end) (fun v =>
              en' e (VList (v :: t) (match t with [] => false | _ => d end))) end)).
    { destruct (form_of n) as [[]|]; try apply ST; [now apply mle_if|]. apply mle_bind; [apply mle_refl|]. intros v. apply E. }
    destruct hv as [[]|]; auto.
  - apply mle_bind; [apply C|]. intros f. apply E.
Qed.
(* where one turn is exactly one step *)
Lemma turn_step N ev e x st : turn N ev ev e x st = step prim ev N e x st.
Proof.
  unfold turn. destruct x as [| | | | | | |l d| | | | | | |]; try reflexivity. destruct l as [|h t]; [reflexivity|]. destruct h; try reflexivity.
  unfold step. unfold ebind, gets at 1 2. destruct (head_value st e n) as [[]|] eqn:H; cbn [step];
    try (unfold ebind, gets; rewrite ?H; reflexivity);
    destruct (form_of n) as [[]|] eqn:F; try reflexivity; unfold ebind, gets; rewrite H, ?F; reflexivity.
Qed.
Lemma mle_ext {A} (a b c : EM A) : mle a b -> (forall st, b st = c st) -> mle a c.
Proof. intros X Y st. rewrite <- Y. apply X. Qed.
Lemma mle_ext_l {A} (a b c : EM A) : (forall st, a st = b st) -> mle b c -> mle a c.
Proof. intros Y X st. rewrite Y. apply X. Qed.

Lemma frame_below N G call n : (forall e x, mle (call e x) (eval prim n e x)) -> (N <= n)%nat ->
  forall e x, mle (one_frame prim N call G e x) (eval prim (n + G) e x).
Proof.
  intros C L. induction G as [|g IH]; intros e x; [apply mle_fuel|].
  rewrite Nat.add_succ_r, one_frame_S. cbn [eval].
  eapply mle_ext; [|apply turn_step]. apply mle_turn; [lia| |exact IH].
  intros e' y. eapply mle_trans; [apply C|apply eval_mono; lia].
Qed.
Lemma deep_below N G d : forall e x, mle (deep prim N G d e x) (eval prim (N + d * G) e x).
Proof.
  induction d as [|d IH]; intros e x; [apply mle_fuel|]. cbn [deep].
  eapply mle_trans; [apply (frame_below N G _ (N + d * G)); [exact IH|lia]|]. apply eval_mono. lia.
Qed.
Lemma deep_above N G : forall m d, (m <= N)%nat -> (m <= G)%nat -> (m <= d)%nat -> forall e x, mle (eval prim m e x) (deep prim N G d e x).
Proof.
  assert (K : forall m, (m <= N)%nat -> (m <= G)%nat -> forall d g, (m <= g)%nat -> (m <= d)%nat ->
    forall e x, mle (eval prim m e x) (one_frame prim N (deep prim N G (pred d)) g e x)).
  { induction m as [|m IH]; intros LN LG d g Lg Ld e x; [apply mle_fuel|].
    destruct g as [|g]; [lia|]. destruct d as [|d]; [lia|]. rewrite one_frame_S. cbn [eval pred].
    eapply mle_ext_l; [intros st; symmetry; apply turn_step|]. apply mle_turn; [lia| |].
    - intros e' y. destruct d as [|d]; [destruct m; [apply mle_fuel|lia]|]. cbn [deep]. apply (IH ltac:(lia) ltac:(lia) (S d) G); lia.
    - intros e' y. apply (IH ltac:(lia) ltac:(lia) (S d) g); lia. }
  intros m d LN LG Ld e x. destruct d as [|d]; [destruct m; [apply mle_fuel|lia]|]. cbn [deep]. apply (K m LN LG (S d) G); lia.
Qed.
Lemma frame_mono N N' G G' c c' : (N <= N')%nat -> (G <= G')%nat -> (forall e x, mle (c e x) (c' e x)) ->
  forall e x, mle (one_frame prim N c G e x) (one_frame prim N' c' G' e x).
Proof.
  intros L LG C. revert G' LG. induction G as [|g IH]; intros [|g'] LG e x; try apply mle_fuel; [lia|].
  rewrite !one_frame_S. apply mle_turn; auto. intros. apply IH. lia.
Qed.
Lemma deep_mono N N' G G' d d' : (N <= N')%nat -> (G <= G')%nat -> (d <= d')%nat ->
  forall e x, mle (deep prim N G d e x) (deep prim N' G' d' e x).
Proof.
  intros L LG. revert d'. induction d as [|d IH]; intros [|d'] LD e x; try apply mle_fuel; [lia|].
  cbn [deep]. apply frame_mono; auto. intros. apply IH. lia.
Qed.
End P.
