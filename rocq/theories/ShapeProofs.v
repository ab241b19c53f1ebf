From Coq Require Import Lia.
From Verif Require Import Base NumModel HeapModel EqModel ListModel ListSpec ListProofs EqSpec EqProofs ShapeSpec.
Local Open Scope list_scope.

Fixpoint ssize (x : shape) : nat :=
  match x with
  | SList l | SVec l => S ((fix go l := match l with [] => 0%nat | y :: r => (S (ssize y) + go r)%nat end) l)
  | _ => 1%nat
  end.
Definition ssizes (l : list shape) : nat :=
  (fix go l := match l with [] => 0%nat | y :: r => (S (ssize y) + go r)%nat end) l.
Lemma ssizes_cons y r : ssizes (y :: r) = (S (ssize y) + ssizes r)%nat.
Proof. reflexivity. Qed.
Lemma ssize_list l : ssize (SList l) = S (ssizes l). Proof. reflexivity. Qed.
Lemma ssize_vec l : ssize (SVec l) = S (ssizes l). Proof. reflexivity. Qed.

Lemma legacy_shape h : forall fuel,
  (forall a b x y, shows h a x -> shows h b y -> (2 * (ssize x + ssize y) <= fuel)%nat ->
     decides (legacy_eq fuel a b h) h (x = y)) /\
  (forall c d l m, shows_cells h c l -> shows_cells h d m -> (2 * (ssizes l + ssizes m) <= fuel)%nat ->
     decides (legacy_list_eq fuel (Some c) (Some d) h) h (l = m)).
Proof.
  induction fuel as [|f (IHe&IHl)].
  { split; intros.
    - destruct x; cbn in *; lia.
    - destruct H; cbn in *; lia. }
  split.
  - intros a b x y Rx Ry L. cbn [legacy_eq].
    inversion Rx; subst;
    match goal with A : h_obj h a = Some ?oa |- _ => rename A into HA end;
    inversion Ry; subst;
    match goal with B : h_obj h b = Some ?ob |- _ => rename B into HB end;
    rewrite (bind_ok _ _ _ _ _ (get_ok _ _ _ HA)), (bind_ok _ _ _ _ _ (get_ok _ _ _ HB));
    cbn [num_vs_float tag negb Nat.eqb Nat.add];
    try (apply dec_true; reflexivity);
    try (apply dec_false; congruence).
    + unfold lift. cbn [as_num]. rewrite number_eq_int.
      eexists. split; [reflexivity|]. rewrite Z.eqb_eq. split; congruence.
    + eexists. split; [reflexivity|]. rewrite Z.eqb_eq. split; congruence.
    + eexists. split; [reflexivity|]. rewrite Bool.eqb_true_iff. split; congruence.
    + eexists. split; [reflexivity|]. rewrite sym_eq_spec by auto. split; congruence.
    + eexists. split; [reflexivity|]. rewrite str_eq_spec by auto. split; congruence.
    + eexists. split; [reflexivity|]. rewrite Nat.eqb_eq. split; congruence.
    + destruct (Nat.eqb_spec t t0) as [->|N]; cbn [negb].
      * match goal with S1 : In t0 [3; 4; 5; 12]%nat |- _ => assert (S2 : legacy_supported t0 = true) by (destruct S1 as [<-|[<-|[<-|[<-|[]]]]]; reflexivity); rewrite S2 end.
        eexists. split; [reflexivity|]. rewrite Nat.eqb_eq. split; congruence.
      * apply dec_false. intros [= ->]. congruence.
    + rewrite !ssize_list in L.
      match goal with RA : shows_cells h ?c _, RB : shows_cells h ?d _ |- decides (_ (Some ?c) (Some ?d) h) _ _ =>
        destruct (IHl _ _ _ _ RA RB) as (r&E&Q); auto; [lia|] end.
      exists r. split; auto. rewrite Q. split; congruence.
    + rewrite !ssize_vec in L.
      assert (X : forall v l, shows_all h v l -> forall w m, shows_all h w m ->
        length v = length w -> (2 * (ssizes l + ssizes m) <= f)%nat ->
        decides (((fix go (v w : list addr) : M bool :=
             match v, w with
             | x :: v', y :: w' =>
                 let! e := legacy_eq f x y in if e then go v' w' else ret false
             | _, _ => ret true
             end) v w) h) h (l = m)).
      { clear -IHe. induction 1; intros w m R2 Le Lf; destruct R2; cbn in Le; try discriminate.
        - apply dec_true; auto.
        - rewrite !ssizes_cons in Lf.
          destruct (IHe a a0 x x0) as (r&E&Q); auto; [lia|].
          rewrite (bind_ok _ _ _ _ _ E). destruct r.
          + destruct Q as (Q&_). rewrite (Q eq_refl).
            destruct (IHshows_all v0 l0) as (r2&E2&Q2); auto; [lia|].
            exists r2. split; auto. rewrite Q2. split; congruence.
          + apply dec_false. intros Eq. inversion Eq; subst. destruct Q as (_&Q). now discriminate Q. }
      assert (Len : forall v l, shows_all h v l -> length v = length l) by (induction 1; cbn; congruence).
      match goal with RA : shows_all h v _, RB : shows_all h v0 _ |- _ => rename RA into H0; rename RB into H2 end.
      destruct (Nat.eqb_spec (length v) (length v0)) as [Le|Le].
      * destruct (X _ _ H0 _ _ H2 Le) as (r&E&Q); [lia|].
        exists r. split; auto. rewrite Q. split; congruence.
      * apply dec_false. intros Eq. inversion Eq; subst.
        apply Le. rewrite (Len _ _ H0), (Len _ _ H2). auto.
  - intros c d l m Rc Rd L. cbn [legacy_list_eq].
    assert (PC : forall c l, shows_cells h c l -> l <> []) by (intros ? ? []; discriminate).
    inversion Rc as [? k x K Rx Nx|? k n x l' K Rx Nx Rn]; subst;
    inversion Rd as [? j y J Ry Ny|? j o y m' J Ry Ny Rm]; subst;
    rewrite (bind_ok _ _ _ _ _ (getc_ok _ _ _ K)), (bind_ok _ _ _ _ _ (getc_ok _ _ _ J));
    rewrite !ssizes_cons in L;
    (destruct (IHe _ _ _ _ Rx Ry) as (r&E&Q); [lia|]);
    rewrite (bind_ok _ _ _ _ _ E);
    (destruct r; cbn [negb];
      [|apply dec_false; intros Eq; destruct Q as (_&Q); injection Eq; intros; subst; discriminate Q; congruence]);
    destruct Q as (Q&_); pose proof (Q eq_refl) as Eq1; subst y; rewrite Nx, Ny.
    + destruct f; [lia|]. apply dec_true. auto.
    + destruct f; [lia|]. apply dec_false. intros [= X]. apply (PC _ _ Rm). auto.
    + destruct f; [lia|]. apply dec_false. intros [= X]. apply (PC _ _ Rn). auto.
    + destruct (IHl _ _ _ _ Rn Rm) as (r&E2&Q2); [lia|].
      exists r. split; auto. rewrite Q2. split; congruence.
Qed.

Lemma cons_like_elem h a c k : cons_like h a -> part h a c -> h_cell h c = Some k -> cons_like h (c_data k).
Proof. intros N P K d j Pd. apply (N d j). eapply pt_elem; eauto. Qed.
Lemma rep_shows h :
  (forall a x, rep h a x -> plain x -> pure_data x -> cons_like h a -> shows h a (flatten x)) /\
  (forall c x y, rep_cell h c x y -> plain x -> plain y -> pure_data x -> pure_data y -> forall a, part h a c -> cons_like h a ->
     exists l, shows_cells h c l /\ flatten (DPair x y) = SList l) /\
  (forall v l, reps h v l -> Forall plain l -> Forall pure_data l -> (forall x, In x v -> cons_like h x) -> shows_all h v (map flatten l)).
Proof.
  apply rep_mutind.
  - intros; now constructor.
  - intros; now constructor.
  - intros; now constructor.
  - intros; now constructor.
  - intros; now constructor.
  - intros; now constructor.
  - intros; now constructor.
  - intros a t n O P [].
  - intros a t O P [].
  - intros a c x y O R IH [P1 P2] [U1 U2] N.
    destruct (IH P1 P2 U1 U2 a (pt_first h a c O) N) as (l & Sc & E). rewrite E. econstructor; eauto.
  - intros a v l O R IH P U N. rewrite plain_vec in P. rewrite pure_vec in U. cbn [flatten]. econstructor; [exact O|].
    apply IH; auto. intros x I d k Pd. apply (N d k). eapply pt_vec; eauto.
  - intros c k x K R IH Nx P1 P2 U1 U2 a Pa N. exists [flatten x]. split; [|reflexivity].
    apply (sh_last h c k); auto. apply IH; auto. eapply cons_like_elem; eauto.
  - intros c k n k' x y K R IH Nx K' D R2 IH2 P1 P2 U1 U2 a Pa N.
    assert (Pn : part h a n) by (eapply pt_next; eauto).
    destruct (N n k' Pn K' D) as (Nn & N1 & N2).
    exists [flatten x; flatten y]. split.
    + assert (S1 : shows h (c_data k) (flatten x)) by (apply IH; auto; exact (cons_like_elem h a c k N Pa K)).
      assert (S2 : shows h (c_data k') (flatten y)) by (apply IH2; auto; exact (cons_like_elem h a n k' N Pn K')).
      exact (sh_next h c k n _ _ K S1 Nx (sh_last h n k' _ K' S2 Nn)).
    + inversion R2; subst; try reflexivity; exfalso; [congruence|]. eapply N2; eauto.
  - intros c k n k' x y z K R IH Nx K' D R2 IH2 P1 P2 U1 U2 a Pa N.
    assert (Pn : part h a n) by (eapply pt_next; eauto). destruct P2, U2.
    destruct (IH2 H H0 H1 H2 a Pn N) as (l & Sl & E).
    exists (flatten x :: l). split.
    + exact (sh_next h c k n _ _ K (IH P1 U1 (cons_like_elem h a c k N Pa K)) Nx Sl).
    + change (flatten (DPair x (DPair y z))) with (SList (flatten x :: match flatten (DPair y z) with SList l => l | s => [s] end)). now rewrite E.
  - intros; constructor.
  - intros a v x l R IH R2 IH2 P U N. inversion P; inversion U; subst. constructor; [apply IH; auto; apply N; now left|].
    apply IH2; auto. intros y I. apply N. now right.
Qed.

Lemma undotted_vec l : undotted (DVec l) <-> Forall undotted l.
Proof.
  cbn. induction l as [|x r IH]; [split; auto|]. split.
  - intros (A&B). constructor; [auto|]. now apply IH.
  - intros F. inversion F; subst. split; auto. now apply IH.
Qed.
Lemma flatten_pair a d : undotted (DPair a d) -> flatten (DPair a d) = SList (flatten a :: match flatten d with SList l => l | _ => [] end).
Proof. intros (_ & _ & H). destruct d; try contradiction; reflexivity. Qed.
Lemma flatten_inj : forall n x y, (dsize x <= n)%nat -> undotted x -> undotted y -> flatten x = flatten y -> x = y.
Proof.
  induction n as [|n IH]; intros x y L Ux Uy E; [pose proof (dsize_pos x); lia|].
  assert (V : forall l m, (dsizes l <= n)%nat -> Forall undotted l -> Forall undotted m -> map flatten l = map flatten m -> l = m).
  { induction l as [|u l IHl]; intros [|v m] Lv Ul Um Em; try discriminate; auto.
    rewrite dsizes_cons in Lv. inversion Ul; inversion Um; subst. injection Em as E1 E2. f_equal; [apply IH; auto; lia|apply IHl; auto; lia]. }
  destruct x as [| | | | | | |a d|l|o].
  8: { destruct y as [| | | | | | |a' d'|m|o']; try discriminate.
    rewrite !flatten_pair in E by auto. injection E as E1 E2.
    destruct Ux as (U1 & U2 & U3), Uy as (W1 & W2 & W3). cbn [dsize] in L.
    assert (a = a') as -> by (apply IH; auto; lia). f_equal.
    apply IH; auto; [lia|].
    destruct d as [| | | | | | |p q| |]; try contradiction; destruct d' as [| | | | | | |p' q'| |]; try contradiction; auto; rewrite ?flatten_pair in * by auto; try discriminate.
    congruence. }
  8: { destruct y as [| | | | | | |a' d'|m|o']; try discriminate.
    injection E as E. f_equal. apply undotted_vec in Ux. apply undotted_vec in Uy. apply V; auto. cbn [dsize] in L. fold (dsizes l) in L. lia. }
  all: destruct y; try discriminate; cbn in E; congruence.
Qed.
