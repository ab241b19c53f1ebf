(** The table of catches never holds more than its 100 entries (throw.cc 13). *)
From Coq Require Import String Lia.
From Verif Require Import Base ParseModel PrintModel EnvModel EnvSpec EnvProofs EvalModel EvalInv EvalSpec EvalInv3.
Local Open Scope list_scope.

Definition fits (st : state) : Prop := (length (d_catch (s_dyn st)) <= 100)%nat.
Definition Qf (st : state) (o : ending) : Prop :=
  fits st -> match o with ERet s | EThrown _ s | EJump _ s => fits s | EExit _ | ENone => True end.
Lemma Qf_same st s : d_catch (s_dyn s) = d_catch (s_dyn st) -> Qf st (ERet s).
Proof. intros E F. cbn. unfold fits. now rewrite E. Qed.
Lemma Qf_trans st st1 o : Qf st (ERet st1) -> Qf st1 o -> Qf st o.
Proof. intros H1 H2 F. exact (H2 (H1 F)). Qed.
Lemma Qf_throw st k a : Qf st (ending_of (@throw val k a st)).
Proof. intro F. unfold throw. destruct (find_handler _ _ _); cbn; auto. Qed.
Lemma fits_pop st : fits st -> fits (pop_catch st).
Proof. unfold fits. cbn. destruct (d_catch (s_dyn st)); cbn; lia. Qed.
Lemma fits_note w st : fits st -> fits (note_catch w st).
Proof. unfold note_catch. destruct (list_eq_dec _ _ _); auto. Qed.
Lemma Qf_handle h : (forall k a, ok Qf (h k a)) -> forall n id w k a s, fits s ->
  match ending_of (handle n id w h k a s) with ERet s | EThrown _ s | EJump _ s => fits s | EExit _ | ENone => True end.
Proof.
  intros H. induction n as [|n IH]; intros id w k a s F; cbn [handle]; [exact I|].
  specialize (H k a (note_catch w (pop_catch s)) (fits_note _ _ (fits_pop _ F))).
  destruct (h k a _) as [v s'|j ? ? s'|j v s'|s'| | |]; cbn in H |- *; auto.
  destruct (Nat.eqb j id); [now apply IH|exact H].
Qed.
Theorem eval_fits prim n e x st : Qf st (ending_of (eval prim n e x st)).
Proof.
  apply ok_eval; clear.
  1: intros; now apply Qf_same.
  1: exact Qf_trans.
  1: intros st b; exact I.
  1: intros; apply Qf_throw.
  1-7: intros; now apply Qf_same.
  - intros i o b t a Hb Ht Ha. unfold winding.
    apply ok_bind; [exact Qf_trans|auto|intros _].
    apply ok_bind; [exact Qf_trans|intro s; now apply Qf_same|intros old].
    apply ok_bind; [exact Qf_trans|intro s; now apply Qf_same|intros _].
    apply ok_bind; [exact Qf_trans|auto|intros r].
    apply ok_bind; [exact Qf_trans|intro s; now apply Qf_same|intros _].
    apply ok_bind; [exact Qf_trans|auto|intros _]. intro s; now apply Qf_same.
  - intros f H st b. unfold with_cont.
    specialize (H (VCont (d_next (s_dyn st)) (s_cur st)) (push_cont st) b).
    destruct (f _ _) as [v s|j k a s|j v s|s| | |]; cbn in H |- *; auto.
    destruct (Nat.eqb _ _); auto.
  - intros n tag b h Hb Hh st F. unfold catching. destruct (Z.leb_spec 100 (Z.of_nat (length (d_catch (s_dyn st))))) as [L|L].
    + exact (Qf_throw st _ _ F).
    + assert (F1 : fits (push_catch tag st)) by (change (S (length (d_catch (s_dyn st))) <= 100)%nat; lia).
      specialize (Hb _ F1).
      destruct (b (push_catch tag st)) as [v s|j k a s|j v s|s| | |]; cbn in Hb |- *; auto.
      * exact (fits_pop s Hb).
      * destruct (Nat.eqb j _); [now apply Qf_handle|exact Hb].
  - intros ev k v Hg. unfold dynthrow. intros st b. unfold ebind at 1, gets.
    destruct (chain_of k (d_conts (s_dyn st))) as [w|] eqn:E; [|exact I].
    assert (NN : forall A (f : state -> A), ok Qf (gets f)) by (intros A f s; now apply Qf_same).
    assert (R : ok Qf (rewind_to ev w)).
    { unfold rewind_to. apply ok_bind; [exact Qf_trans|apply NN|]. intro cur. apply ok_bind; [exact Qf_trans| |intros _].
      { induction (to_unwind _ _) as [|i l IH]; cbn [run_outs]; [intro s; now apply Qf_same|].
        apply ok_bind; [exact Qf_trans|apply NN|]. intro g. apply ok_bind; [exact Qf_trans| |intros _; apply IH].
        destruct g as [[? ?]|]; [apply Hg | intro s; now apply Qf_same]. }
      apply ok_bind; [exact Qf_trans|intro s; now apply Qf_same|]. intros _.
      induction (rev _) as [|i l IH]; cbn [run_ins]; [intro s; now apply Qf_same|].
      apply ok_bind; [exact Qf_trans|apply NN|]. intro g. apply ok_bind; [exact Qf_trans| |intros _].
      { destruct g as [[? ?]|]; [apply Hg | intro s; now apply Qf_same]. }
      apply ok_bind; [exact Qf_trans|intro s; now apply Qf_same|intros _; apply IH]. }
    specialize (R st b). unfold ebind.
    destruct (rewind_to ev w st) as [u s|j1 ? ? s|j1 ? s|s| | |]; try exact R.
    destruct (existsb (Nat.eqb k) (d_live (s_dyn s))) eqn:X; [exact R|exact I].
Qed.
