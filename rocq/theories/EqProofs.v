From Coq Require Import Lia SpecFloat.
From Verif Require Import Base NumModel HeapModel EqModel ListModel ListSpec ListProofs EqSpec.

Scheme rep_mind := Induction for rep Sort Prop
  with rep_cell_mind := Induction for rep_cell Sort Prop
  with reps_mind := Induction for reps Sort Prop.
Combined Scheme rep_mutind from rep_mind, rep_cell_mind, reps_mind.

Fixpoint dsize (x : datum) : nat :=
  match x with
  | DPair a d => S (dsize a + dsize d)
  | DVec l => S ((fix go l := match l with [] => 0%nat | y :: r => (dsize y + go r)%nat end) l)
  | _ => 1%nat
  end.
Definition dsizes (l : list datum) : nat :=
  (fix go l := match l with [] => 0%nat | y :: r => (dsize y + go r)%nat end) l.
Lemma dsizes_cons y r : dsizes (y :: r) = (dsize y + dsizes r)%nat.
Proof. reflexivity. Qed.
Lemma dsize_pos x : (1 <= dsize x)%nat.
Proof. destruct x; cbn; lia. Qed.

Definition plains (l : list datum) : Prop := Forall plain l.
Lemma plain_vec l : plain (DVec l) <-> plains l.
Proof.
  unfold plains. cbn. induction l as [|x r IH]; [split; auto|].
  split.
  - intros (A&B). constructor; [auto|]. now apply IH.
  - intros F. inversion F; subst. split; auto. now apply IH.
Qed.
Definition pures (l : list datum) : Prop := Forall pure_data l.
Lemma pure_vec l : pure_data (DVec l) <-> pures l.
Proof.
  unfold pures. cbn. induction l as [|x r IH]; [split; auto|].
  split.
  - intros (A&B). constructor; [auto|]. now apply IH.
  - intros F. inversion F; subst. split; auto. now apply IH.
Qed.

(** an address denotes at most one datum *)
Lemma rep_fun_all h :
  (forall a x, rep h a x -> forall y, rep h a y -> y = x) /\
  (forall c x y, rep_cell h c x y -> forall x' y', rep_cell h c x' y' -> x' = x /\ y' = y) /\
  (forall v l, reps h v l -> forall l', reps h v l' -> l' = l).
Proof.
  apply rep_mutind.
  1-9: intros; match goal with H : rep _ _ _ |- _ => inversion H; subst; congruence end.
  - intros a c x y O R IH y0 R0. inversion R0; subst; try congruence.
    match goal with Q : rep_cell h ?c0 _ _, E : h_obj h a = Some (OList ?c0) |- _ =>
      assert (Ec : c0 = c) by congruence; rewrite Ec in Q; destruct (IH _ _ Q) end. congruence.
  - intros a v l O R IH y R0. inversion R0; subst; try congruence.
    f_equal. apply IH. congruence.
  - intros c k x K R IH N x' y' R'. inversion R'; subst; try congruence.
    replace k0 with k in * by congruence. split; auto.
  - intros c k n k' x y K R IH N K' D R2 IH2 x' y' R'.
    inversion R'; subst; replace k0 with k in * by congruence; try congruence;
      replace n0 with n in * by congruence; replace k'0 with k' in * by congruence; try congruence; auto.
  - intros c k n k' x y z K R IH N K' D R2 IH2 x' y' R'.
    inversion R'; subst; replace k0 with k in * by congruence; try congruence;
      replace n0 with n in * by congruence; replace k'0 with k' in * by congruence; try congruence.
    match goal with Q : rep_cell h n ?u ?v |- _ /\ DPair ?u ?v = _ => destruct (IH2 _ _ Q) end. split; [auto|congruence].
  - intros l' R. now inversion R.
  - intros a v x l R IH R2 IH2 l' R'. inversion R'; subst. f_equal; auto.
Qed.
Lemma rep_fun h a x y : rep h a x -> rep h a y -> y = x.
Proof. intros A B. now apply (proj1 (rep_fun_all h) a x A). Qed.

(** scalar comparisons *)
Lemma number_eq_int x y : number_eq (VInt x) (VInt y) = Ok (x =? y).
Proof. reflexivity. Qed.
Lemma c_str_no_nul s : no_nul s -> c_str s = s.
Proof.
  unfold no_nul, c_str. induction s as [|x r IH]; intros N; auto.
  destruct (Z.eqb_spec x 0) as [->|]; [exfalso; apply N; now left|].
  f_equal. apply IH. intros I. apply N. now right.
Qed.
Lemma zlist_eqb_spec a : forall b, zlist_eqb a b = true <-> a = b.
Proof.
  induction a as [|x a IH]; intros [|y b]; cbn; split; intros H; try discriminate; auto.
  - apply andb_prop in H. destruct H as [A B]. apply Z.eqb_eq in A. apply IH in B. congruence.
  - inversion H; subst. rewrite Z.eqb_refl. now apply IH.
Qed.
Lemma sym_eq_spec a b : no_nul a -> no_nul b -> (sym_eq a b = true <-> a = b).
Proof. intros A B. unfold sym_eq. rewrite !c_str_no_nul by auto. apply zlist_eqb_spec. Qed.
Lemma strncmp_spec a : forall b, no_nul a -> length a = length b ->
  (strncmp_eq (length a) a b = true <-> a = b).
Proof.
  induction a as [|x a IH]; intros [|y b] N L; cbn in *; try discriminate; [split; auto|].
  destruct (Z.eqb_spec x y) as [->|].
  - destruct (Z.eqb_spec y 0) as [->|]; [exfalso; apply N; now left|].
    rewrite IH; [|intros I; apply N; now right|congruence]. split; congruence.
  - split; [discriminate|congruence].
Qed.
Lemma str_eq_spec a b : no_nul a -> (str_eq a b = true <-> a = b).
Proof.
  intros N. unfold str_eq. destruct (Nat.eqb_spec (length a) (length b)) as [E|E].
  - now apply strncmp_spec.
  - split; [discriminate|]. intros ->. congruence.
Qed.

Definition decides (r : res (bool * heap)) (h : heap) (P : Prop) : Prop :=
  exists b, r = Ok (b, h) /\ (b = true <-> P).

Lemma dec_false h (P : Prop) : ~ P -> decides (Ok (false, h)) h P.
Proof. intros N. exists false. split; auto. split; [discriminate|tauto]. Qed.
Lemma dec_true h (P : Prop) : P -> decides (Ok (true, h)) h P.
Proof. intros N. exists true. split; auto. tauto. Qed.

Lemma equal_ok h (W : h_obj h nil_a = Some ONil) : forall fuel,
  (forall a b x y, rep h a x -> rep h b y -> plain x -> plain y -> (2 * (dsize x + dsize y) + 1 <= fuel)%nat ->
     decides (equal_rec fuel a b h) h (x = y)) /\
  (forall c d x1 x2 y1 y2, rep_cell h c x1 x2 -> rep_cell h d y1 y2 ->
     plain x1 -> plain x2 -> plain y1 -> plain y2 ->
     (2 * (2 + dsize x1 + dsize x2 + dsize y1 + dsize y2) <= fuel)%nat ->
     decides (list_equal fuel c d h) h (x1 = y1 /\ x2 = y2)).
Proof.
  induction fuel as [|f (IHe&IHl)].
  { split; intros; lia. }
  split.
  - intros a b x y Rx Ry Px Py L. cbn [equal_rec].
    destruct (Nat.eqb_spec a b) as [->|Nab].
    { apply dec_true. eapply rep_fun; eauto. }
    inversion Rx; subst;
    match goal with A : h_obj h a = Some ?oa |- _ => rename A into HA end;
    inversion Ry; subst;
    match goal with B : h_obj h b = Some ?ob |- _ => rename B into HB end;
    rewrite (bind_ok _ _ _ _ _ (get_ok _ _ _ HA)), (bind_ok _ _ _ _ _ (get_ok _ _ _ HB));
    cbn [num_vs_float tag negb Nat.eqb Nat.add];
    try (apply dec_true; reflexivity);
    try (apply dec_false; congruence);
    try (match goal with |- decides ((if Nat.eqb ?u ?v then _ else _) h) _ _ => destruct (Nat.eqb u v) end;
         apply dec_false; congruence).
    + (* ints *) unfold lift. cbn [as_num]. rewrite number_eq_int.
      eexists. split; [reflexivity|]. rewrite Z.eqb_eq. split; congruence.
    + eexists. split; [reflexivity|]. rewrite Z.eqb_eq. split; congruence.
    + eexists. split; [reflexivity|]. rewrite Bool.eqb_true_iff. split; congruence.
    + eexists. split; [reflexivity|]. rewrite sym_eq_spec by auto. split; congruence.
    + eexists. split; [reflexivity|]. rewrite str_eq_spec by auto. split; congruence.
    + (* opaque, opaque *) match goal with |- decides ((if ?q then _ else _) h) _ _ => destruct q end;
      apply dec_false; congruence.
    + (* pairs *)
      cbn [plain dsize] in *. destruct Px, Py.
      match goal with RA : rep_cell h ?c _ _, RB : rep_cell h ?d _ _ |- decides (_ ?c ?d h) _ _ =>
        destruct (IHl _ _ _ _ _ _ RA RB) as (r&E&Q); auto; [lia|]
      | RA : rep_cell h ?c _ _, RB : rep_cell h ?d _ _ |- decides (_ (Some ?c) (Some ?d) h) _ _ =>
        destruct (IHl _ _ _ _ _ _ RA RB) as (r&E&Q); auto; [lia|] end.
      exists r. split; auto. rewrite Q. split; [intros (->&->); auto|intros Eq; inversion Eq; auto].
    + (* vectors *)
      rewrite plain_vec in Px, Py. unfold plains in *.
      assert (X : forall v l, reps h v l -> forall w m, reps h w m -> Forall plain l -> Forall plain m ->
        length v = length w -> (2 * (dsizes l + dsizes m) + 1 <= f)%nat ->
        decides (((fix go (v w : list addr) : M bool :=
             match v, w with
             | x :: v', y :: w' =>
                 let! e := equal_rec f x y in if e then go v' w' else ret false
             | _, _ => ret true
             end) v w) h) h (l = m)).
      { clear -IHe. induction 1; intros w m R2 P1 P2 Le Lf; destruct R2; cbn in Le; try discriminate.
        - apply dec_true; auto.
        - inversion P1; inversion P2; subst. rewrite !dsizes_cons in Lf.
          destruct (IHe a a0 x x0) as (r&E&Q); auto; [lia|].
          rewrite (bind_ok _ _ _ _ _ E). destruct r.
          + destruct Q as (Q&_). rewrite (Q eq_refl).
            destruct (IHreps v0 l0) as (r2&E2&Q2); auto; [lia|].
            exists r2. split; auto. rewrite Q2. split; congruence.
          + apply dec_false. intros Eq. inversion Eq; subst. destruct Q as (_&Q). now discriminate Q. }
      assert (Len : forall v l, reps h v l -> length v = length l) by (induction 1; cbn; congruence).
      match goal with RA : reps h v _, RB : reps h v0 _ |- _ => rename RA into H0; rename RB into H2 end.
      destruct (Nat.eqb_spec (length v) (length v0)) as [Le|Le].
      * destruct (X _ _ H0 _ _ H2 Px Py Le) as (r&E&Q).
        -- cbn [dsize] in L. fold (dsizes l) in L. fold (dsizes l0) in L. lia.
        -- exists r. split; auto. rewrite Q. split; congruence.
      * apply dec_false. intros Eq. inversion Eq; subst.
        apply Le. rewrite (Len _ _ H0), (Len _ _ H2). auto.
  - intros c d x1 x2 y1 y2 Rc Rd P1 P2 P3 P4 L. cbn [list_equal].
    assert (Dx2 := dsize_pos x2). assert (Dy2 := dsize_pos y2).
    inversion Rc as [? k ? K Rx Nx|? k n k' ? ? K Rx Nx K' Dk Ry'|? k n k' ? ? ? K Rx Nx K' Dk Rn]; subst;
    inversion Rd as [? j ? J Ry Ny|? j m j' ? ? J Ry Ny J' Dj Ry2|? j m j' ? ? ? J Ry Ny J' Dj Rm]; subst;
    rewrite (bind_ok _ _ _ _ _ (getc_ok _ _ _ K)), (bind_ok _ _ _ _ _ (getc_ok _ _ _ J));
    (destruct (IHe _ _ _ _ Rx Ry) as (r&E&Q); auto; [lia|]);
    rewrite (bind_ok _ _ _ _ _ E);
    (destruct r; cbn [negb];
      [|apply dec_false; intros (Eq&_); destruct Q as (_&Q); specialize (Q Eq); discriminate]);
    destruct Q as (Q&_); pose proof (Q eq_refl) as Eq1; subst y1; rewrite Nx, Ny.
    + apply dec_true. auto.
    + erewrite bind_ok by reflexivity.
      erewrite bind_ok; [|rewrite (bind_ok _ _ _ _ _ (getc_ok _ _ _ J')); reflexivity].
      cbv iota beta zeta. rewrite Dj.
      destruct (IHe nil_a (c_data j') DNil y2) as (r&E2&Q2); auto; [now constructor|cbn [dsize] in *; lia|].
      exists r. split; auto. rewrite Q2. split; [auto|tauto].
    + erewrite bind_ok by reflexivity.
      erewrite bind_ok; [|rewrite (bind_ok _ _ _ _ _ (getc_ok _ _ _ J')); reflexivity].
      cbv iota beta zeta. rewrite Dj. apply dec_false. intros (_&X). discriminate.
    + erewrite bind_ok; [|rewrite (bind_ok _ _ _ _ _ (getc_ok _ _ _ K')); reflexivity].
      erewrite bind_ok by reflexivity.
      cbv iota beta zeta. rewrite Dk.
      destruct (IHe (c_data k') nil_a x2 DNil) as (r&E2&Q2); auto; [now constructor|cbn [dsize] in *; lia|].
      exists r. split; auto. rewrite Q2. split; [auto|tauto].
    + erewrite bind_ok; [|rewrite (bind_ok _ _ _ _ _ (getc_ok _ _ _ K')); reflexivity].
      erewrite bind_ok; [|rewrite (bind_ok _ _ _ _ _ (getc_ok _ _ _ J')); reflexivity].
      cbv iota beta zeta. rewrite Dk, Dj. cbn [andb].
      destruct (IHe (c_data k') (c_data j') x2 y2) as (r&E2&Q2); auto; [lia|].
      exists r. split; auto. rewrite Q2. split; [auto|tauto].
    + erewrite bind_ok; [|rewrite (bind_ok _ _ _ _ _ (getc_ok _ _ _ K')); reflexivity].
      erewrite bind_ok; [|rewrite (bind_ok _ _ _ _ _ (getc_ok _ _ _ J')); reflexivity].
      cbv iota beta zeta. rewrite Dk, Dj. cbn [andb].
      cbn [plain dsize] in *. destruct P4 as (P4a&P4b).
      unfold is_pair_at. inversion Ry'; subst;
        match goal with O : h_obj h (c_data k') = Some _ |- _ =>
          erewrite bind_ok; [|rewrite (bind_ok _ _ _ _ _ (get_ok _ _ _ O)); reflexivity] end;
        cbv iota beta; try (apply dec_false; intros (_&X); discriminate).
      cbn [plain dsize] in *. destruct P2 as (P2a&P2b).
      destruct (IHl _ _ _ _ _ _ H0 Rm) as (r&E2&Q2); auto; [lia|].
      exists r. split; auto. rewrite Q2. split; [intros (->&->); auto|intros (_&X); inversion X; auto].
    + erewrite bind_ok; [|rewrite (bind_ok _ _ _ _ _ (getc_ok _ _ _ K')); reflexivity].
      erewrite bind_ok by reflexivity.
      cbv iota beta zeta. rewrite Dk. apply dec_false. intros (_&X). discriminate.
    + erewrite bind_ok; [|rewrite (bind_ok _ _ _ _ _ (getc_ok _ _ _ K')); reflexivity].
      erewrite bind_ok; [|rewrite (bind_ok _ _ _ _ _ (getc_ok _ _ _ J')); reflexivity].
      cbv iota beta zeta. rewrite Dk, Dj. cbn [andb].
      cbn [plain dsize] in *. destruct P2 as (P2a&P2b).
      unfold is_pair_at. inversion Ry2; subst;
        match goal with O : h_obj h (c_data j') = Some _ |- _ =>
          erewrite bind_ok; [|rewrite (bind_ok _ _ _ _ _ (get_ok _ _ _ O)); reflexivity] end;
        cbv iota beta; try (apply dec_false; intros (_&X); discriminate).
      cbn [plain dsize] in *. destruct P4 as (P4a&P4b).
      destruct (IHl _ _ _ _ _ _ Rn H0) as (r&E2&Q2); auto; [lia|].
      exists r. split; auto. rewrite Q2. split; [intros (->&->); auto|intros (_&X); inversion X; auto].
    + erewrite bind_ok; [|rewrite (bind_ok _ _ _ _ _ (getc_ok _ _ _ K')); reflexivity].
      erewrite bind_ok; [|rewrite (bind_ok _ _ _ _ _ (getc_ok _ _ _ J')); reflexivity].
      cbv iota beta zeta. rewrite Dk, Dj. cbn [andb].
      cbn [plain dsize] in *. destruct P4 as (P4a&P4b). destruct P2 as (P2a&P2b).
      destruct (IHl _ _ _ _ _ _ Rn Rm) as (r&E2&Q2); auto; [lia|].
      exists r. split; auto. rewrite Q2. split; [intros (->&->); auto|intros (_&X); inversion X; auto].
Qed.
Lemma equal_decides h a b x y fuel : wf h -> rep h a x -> rep h b y -> plain x -> plain y ->
  (2 * (dsize x + dsize y) + 1 <= fuel)%nat ->
  exists r, equal_rec fuel a b h = Ok (r, h) /\ (r = true <-> x = y).
Proof. intros W Ra Rb Pa Pb L. apply equal_ok; auto. apply W. Qed.

(** the legacy comparison on data without dotted pairs *)
Lemma legacy_ok h (ND : no_dots h) : forall fuel,
  (forall a b x y, rep h a x -> rep h b y -> plain x -> plain y -> pure_data x -> pure_data y ->
     (2 * (dsize x + dsize y) + 1 <= fuel)%nat ->
     decides (legacy_eq fuel a b h) h (x = y)) /\
  (forall c d x1 x2 y1 y2, rep_cell h c x1 x2 -> rep_cell h d y1 y2 ->
     plain x1 -> plain x2 -> plain y1 -> plain y2 ->
     pure_data x1 -> pure_data x2 -> pure_data y1 -> pure_data y2 ->
     (2 * (2 + dsize x1 + dsize x2 + dsize y1 + dsize y2) <= fuel)%nat ->
     decides (legacy_list_eq fuel (Some c) (Some d) h) h (x1 = y1 /\ x2 = y2)).
Proof.
  induction fuel as [|f (IHe&IHl)].
  { split; intros; lia. }
  split.
  - intros a b x y Rx Ry Px Py Ux Uy L. cbn [legacy_eq].
    inversion Rx; subst; try (exfalso; exact Ux);
    match goal with A : h_obj h a = Some ?oa |- _ => rename A into HA end;
    inversion Ry; subst; try (exfalso; exact Uy);
    match goal with B : h_obj h b = Some ?ob |- _ => rename B into HB end;
    rewrite (bind_ok _ _ _ _ _ (get_ok _ _ _ HA)), (bind_ok _ _ _ _ _ (get_ok _ _ _ HB));
    cbn [num_vs_float tag negb Nat.eqb Nat.add];
    try (apply dec_true; reflexivity);
    try (apply dec_false; congruence).
    + unfold lift. cbn [as_num]. rewrite number_eq_int.
      eexists. split; [reflexivity|]. rewrite Z.eqb_eq. split; congruence.
    + eexists. split; [reflexivity|]. rewrite Z.eqb_eq. split; congruence.
    + eexists. split; [reflexivity|]. rewrite Bool.eqb_true_iff. split; congruence.
    + eexists. split; [reflexivity|]. rewrite sym_eq_spec by auto. split; congruence.
    + eexists. split; [reflexivity|]. rewrite str_eq_spec by auto. split; congruence.
    + cbn [plain pure_data dsize] in *. destruct Px, Py, Ux, Uy.
      match goal with RA : rep_cell h ?c _ _, RB : rep_cell h ?d _ _ |- decides (_ ?c ?d h) _ _ =>
        destruct (IHl _ _ _ _ _ _ RA RB) as (r&E&Q); auto; [lia|]
      | RA : rep_cell h ?c _ _, RB : rep_cell h ?d _ _ |- decides (_ (Some ?c) (Some ?d) h) _ _ =>
        destruct (IHl _ _ _ _ _ _ RA RB) as (r&E&Q); auto; [lia|] end.
      exists r. split; auto. rewrite Q. split; [intros (->&->); auto|intros Eq; inversion Eq; auto].
    + rewrite plain_vec in Px, Py. rewrite pure_vec in Ux, Uy. unfold plains, pures in *.
      assert (X : forall v l, reps h v l -> forall w m, reps h w m -> Forall plain l -> Forall plain m ->
        Forall pure_data l -> Forall pure_data m ->
        length v = length w -> (2 * (dsizes l + dsizes m) + 1 <= f)%nat ->
        decides (((fix go (v w : list addr) : M bool :=
             match v, w with
             | x :: v', y :: w' =>
                 let! e := legacy_eq f x y in if e then go v' w' else ret false
             | _, _ => ret true
             end) v w) h) h (l = m)).
      { clear -IHe. induction 1; intros w m R2 P1 P2 U1 U2 Le Lf; destruct R2; cbn in Le; try discriminate.
        - apply dec_true; auto.
        - inversion P1; inversion P2; inversion U1; inversion U2; subst. rewrite !dsizes_cons in Lf.
          destruct (IHe a a0 x x0) as (r&E&Q); auto; [lia|].
          rewrite (bind_ok _ _ _ _ _ E). destruct r.
          + destruct Q as (Q&_). rewrite (Q eq_refl).
            destruct (IHreps v0 l0) as (r2&E2&Q2); auto; [lia|].
            exists r2. split; auto. rewrite Q2. split; congruence.
          + apply dec_false. intros Eq. inversion Eq; subst. destruct Q as (_&Q). now discriminate Q. }
      assert (Len : forall v l, reps h v l -> length v = length l) by (induction 1; cbn; congruence).
      match goal with RA : reps h v _, RB : reps h v0 _ |- _ => rename RA into H0; rename RB into H2 end.
      destruct (Nat.eqb_spec (length v) (length v0)) as [Le|Le].
      * destruct (X _ _ H0 _ _ H2 Px Py Ux Uy Le) as (r&E&Q).
        -- cbn [dsize] in L. fold (dsizes l) in L. fold (dsizes l0) in L. lia.
        -- exists r. split; auto. rewrite Q. split; congruence.
      * apply dec_false. intros Eq. inversion Eq; subst.
        apply Le. rewrite (Len _ _ H0), (Len _ _ H2). auto.
  - intros c d x1 x2 y1 y2 Rc Rd P1 P2 P3 P4 U1 U2 U3 U4 L. cbn [legacy_list_eq].
    assert (Dx2 := dsize_pos x2). assert (Dy2 := dsize_pos y2).
    inversion Rc as [? k ? K Rx Nx|? k n k' ? ? K Rx Nx K' Dk Ry'|? k n k' ? ? ? K Rx Nx K' Dk Rn]; subst;
      [|rewrite (ND _ _ K') in Dk; discriminate|];
    (inversion Rd as [? j ? J Ry Ny|? j m j' ? ? J Ry Ny J' Dj Ry2|? j m j' ? ? ? J Ry Ny J' Dj Rm]; subst;
      [|rewrite (ND _ _ J') in Dj; discriminate|]);
    rewrite (bind_ok _ _ _ _ _ (getc_ok _ _ _ K)), (bind_ok _ _ _ _ _ (getc_ok _ _ _ J));
    (destruct (IHe _ _ _ _ Rx Ry) as (r&E&Q); auto; [lia|]);
    rewrite (bind_ok _ _ _ _ _ E);
    (destruct r; cbn [negb];
      [|apply dec_false; intros (Eq&_); destruct Q as (_&Q); specialize (Q Eq); discriminate]);
    destruct Q as (Q&_); pose proof (Q eq_refl) as Eq1; subst y1; rewrite Nx, Ny.
    + destruct f; [lia|]. apply dec_true. auto.
    + destruct f; [lia|]. apply dec_false. intros (_&X). discriminate.
    + destruct f; [lia|]. apply dec_false. intros (_&X). discriminate.
    + cbn [plain pure_data dsize] in *. destruct P4 as (P4a&P4b), P2 as (P2a&P2b), U2, U4.
      destruct (IHl _ _ _ _ _ _ Rn Rm) as (r&E2&Q2); auto; [lia|].
      exists r. split; auto. rewrite Q2. split; [intros (->&->); auto|intros (_&X); inversion X; auto].
Qed.
