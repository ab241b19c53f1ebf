From Coq Require Import List ZArith Bool Lia.
From Verif Require Import Base SmobModel SmobSpec.
Import ListNotations.
Local Open Scope Z_scope.
Local Open Scope list_scope.

Lemma update_length : forall A i (f : A -> A) l, length (update i f l) = length l.
Proof. intros A i f l. revert i. induction l; intros [|i]; cbn; auto. Qed.
Lemma update_nth : forall A i (f : A -> A) l j,
  nth_error (update i f l) j = if Nat.eqb i j then option_map f (nth_error l j) else nth_error l j.
Proof.
  intros A i f l. revert i. induction l as [|x r IH]; intros [|i] [|j]; cbn; auto.
  destruct (Nat.eqb i j); reflexivity.
Qed.
Lemma nth_app_last : forall A (l : list A) x j, nth_error (l ++ [x]) j =
  if Nat.eqb j (length l) then Some x else nth_error l j.
Proof.
  intros A l x j. destruct (Nat.eqb_spec j (length l)) as [->|N].
  - rewrite nth_error_app2, Nat.sub_diag by lia. reflexivity.
  - destruct (Nat.lt_ge_cases j (length l)).
    + apply nth_error_app1. assumption.
    + rewrite nth_error_app2 by lia. rewrite (proj2 (nth_error_None l j)) by lia.
      destruct (j - length l)%nat as [|k] eqn:E; [lia|]. destruct k; reflexivity.
Qed.

Lemma in64_iff : forall z, in64 z = true <-> i64_min <= z <= i64_max.
Proof. intro z. unfold in64. rewrite andb_true_iff, !Z.leb_le. tauto. Qed.
Lemma i64_ok : forall z, i64_min <= z <= i64_max -> i64 z = Ok z.
Proof. intros z H. unfold i64. apply in64_iff in H. rewrite H. reflexivity. Qed.

Lemma get_num_sane : forall tag, sane_tag tag -> get_smob_num tag = Ok (tag - base_tag).
Proof. intros tag [H1 H2]. unfold get_smob_num. apply i64_ok. unfold base_tag, i64_min, i64_max in *. lia. Qed.

Lemma with_tag_cases : forall A st tag (k : nat -> res A),
  with_tag st tag k = UB \/
  (with_tag st tag k = Err /\ ~ (0 <= tag - base_tag < numsmob st)) \/
  (with_tag st tag k = k (Z.to_nat (tag - base_tag)) /\ 0 <= tag - base_tag < numsmob st).
Proof.
  intros A st tag k. unfold with_tag, get_smob_num, i64. destruct (in64 (tag - base_tag)); cbn; auto.
  destruct (Z.ltb_spec (tag - base_tag) 0); cbn; [right; left; split; [reflexivity|lia]|].
  destruct (Z.leb_spec (numsmob st) (tag - base_tag)); cbn; [right; left; split; [reflexivity|lia]|].
  right; right. split; [reflexivity|lia].
Qed.

Lemma registrations_app : forall h1 h2, registrations (h1 ++ h2) = registrations h1 + registrations h2.
Proof. induction h1 as [|e r IH]; intro h2; [reflexivity|]. cbn [app registrations]. destruct e; rewrite IH; lia. Qed.
Lemma last_stored_app : forall h1 h2 w a c,
  last_stored (h1 ++ h2) w a c = last_stored h2 w a (last_stored h1 w a c).
Proof. induction h1 as [|e r IH]; intros; [reflexivity|]. cbn. destruct e; apply IH. Qed.
Lemma last_installed_app : forall h1 h2 w t c,
  last_installed (h1 ++ h2) w t c = last_installed h2 w t (last_installed h1 w t c).
Proof. induction h1 as [|e r IH]; intros; [reflexivity|]. cbn. destruct e; apply IH. Qed.

(** the invariant *)
Record inv (h : list event) (st : state) : Prop := {
  i_count : numsmob st = registrations h;
  i_max : numsmob st <= 256;
  i_reg : forall i d, nth_error (registry st) i = Some d ->
    In (Registered (d_name d) (d_size d) (base_tag + Z.of_nat i)) h /\
    (forall w, last_installed h w (base_tag + Z.of_nat i) None = Some (d_fn d w));
  i_reg_rev : forall name size tag, In (Registered name size tag) h ->
    exists i d, tag = base_tag + Z.of_nat i /\ nth_error (registry st) i = Some d /\
                d_name d = name /\ d_size d = size;
  i_dup : forall h1 h2 h3 n1 s1 n2 s2 t1 t2,
    h = h1 ++ Registered n1 s1 t1 :: h2 ++ Registered n2 s2 t2 :: h3 -> t1 < t2;
  i_obj : forall a s, nth_error (objects st) a = Some s ->
    (exists d1 d2 d3, In (Made (s_tag s) d1 d2 d3 a) h) /\
    base_tag <= s_tag s < base_tag + numsmob st /\
    (forall w, last_stored h w a None = Some (get_field w s));
  i_obj_rev : forall tag d1 d2 d3 a, In (Made tag d1 d2 d3 a) h ->
    exists s, nth_error (objects st) a = Some s /\ s_tag s = tag
}.

Lemma snoc_split : forall A (h : list A) x h1 y h2, h ++ [x] = h1 ++ y :: h2 ->
  (h2 = [] /\ y = x /\ h1 = h) \/ exists h2', h2 = h2' ++ [x] /\ h = h1 ++ y :: h2'.
Proof.
  intros A h x h1 y h2 E. destruct (exists_last (l := y :: h2)) as (q & z & Q); [discriminate|].
  rewrite Q, app_assoc in E. apply app_inj_tail in E. destruct E as [E ->].
  destruct q as [|y' q].
  - cbn in Q. injection Q as -> ->. rewrite app_nil_r in E. auto.
  - cbn in Q. injection Q as -> ->. right. exists q. auto.
Qed.

Lemma dup_step : forall h e,
  (forall h1 h2 h3 n1 s1 n2 s2 t1 t2,
    h = h1 ++ Registered n1 s1 t1 :: h2 ++ Registered n2 s2 t2 :: h3 -> t1 < t2) ->
  (forall n1 s1 t1 n2 s2 t2, e = Registered n2 s2 t2 -> In (Registered n1 s1 t1) h -> t1 < t2) ->
  forall h1 h2 h3 n1 s1 n2 s2 t1 t2,
    h ++ [e] = h1 ++ Registered n1 s1 t1 :: h2 ++ Registered n2 s2 t2 :: h3 -> t1 < t2.
Proof.
  intros h e D N h1 h2 h3 n1 s1 n2 s2 t1 t2 E.
  destruct (snoc_split _ _ _ _ _ _ E) as [(Q & _ & _)|(h2' & Q & ->)].
  - destruct h2; discriminate Q.
  - symmetry in Q. destruct (snoc_split _ _ _ _ _ _ Q) as [(-> & Q1 & ->)|(h3' & -> & ->)].
    + eapply N; [symmetry; exact Q1|]. apply in_or_app. right. left. reflexivity.
    + eapply D. reflexivity.
Qed.

(** events that do not touch the registry / the objects *)
Lemma inv_other : forall h st e,
  inv h st -> (forall n s t, e <> Registered n s t) -> (forall w t i, e <> Installed w t i) ->
  (forall t a b c d, e <> Made t a b c d) -> (forall w a z, e <> Stored w a z) ->
  inv (h ++ [e]) st.
Proof.
  intros h st e I N1 N2 N3 N4.
  assert (LI : forall w t c, last_installed (h ++ [e]) w t c = last_installed h w t c).
  { intros. rewrite last_installed_app. destruct e; try reflexivity; [edestruct N1|edestruct N2]; reflexivity. }
  assert (LS : forall w t c, last_stored (h ++ [e]) w t c = last_stored h w t c).
  { intros. rewrite last_stored_app. destruct e; try reflexivity; [edestruct N3|edestruct N4]; reflexivity. }
  split.
  - rewrite registrations_app, <- (i_count _ _ I). destruct e; cbn; try lia. edestruct N1; reflexivity.
  - apply I.
  - intros i d H. destruct (i_reg _ _ I i d H) as [A B]. split; [apply in_or_app; auto|]. intro w. rewrite LI. apply B.
  - intros n s t H. apply in_app_or in H. destruct H as [H|[H|[]]]; [exact (i_reg_rev _ _ I n s t H)|].
    edestruct N1; exact H.
  - apply dup_step; [apply I|]. intros ? ? ? ? ? ? Q. edestruct N1; exact Q.
  - intros a s H. destruct (i_obj _ _ I a s H) as ((d1 & d2 & d3 & A) & B & C).
    split; [exists d1, d2, d3; apply in_or_app; auto|]. split; [exact B|]. intro w. rewrite LS. apply C.
  - intros t d1 d2 d3 a H. apply in_app_or in H. destruct H as [H|[H|[]]]; [exact (i_obj_rev _ _ I _ _ _ _ _ H)|].
    edestruct N3; exact H.
Qed.
Lemma inv_failed : forall h st, inv h st -> inv (h ++ [Failed]) st.
Proof. intros h st I. apply inv_other; [exact I|discriminate..]. Qed.

Lemma last_stored_fresh : forall h a w, (forall t d1 d2 d3 , ~ In (Made t d1 d2 d3 a) h) ->
  (forall w z, ~ In (Stored w a z) h) -> last_stored h w a None = None.
Proof.
  induction h as [|e r IH]; intros a w N1 N2; [reflexivity|].
  assert (R := IH a w (fun t d1 d2 d3 Q => N1 t d1 d2 d3 (or_intror Q)) (fun w z Q => N2 w z (or_intror Q))).
  destruct e; cbn; try exact R.
  - destruct (Nat.eqb_spec a a0) as [<-|]; [|exact R]. exfalso. eapply N1. left. reflexivity.
  - destruct (Nat.eqb_spec a a0) as [<-|]; [|exact R]. exfalso. eapply N2. left. reflexivity.
Qed.

Lemma history_inv : forall h st, history h st -> inv h st.
Proof.
  intros h st H. induction H.
  - split.
    + reflexivity.
    + discriminate.
    + intros i d Q. destruct i; discriminate Q.
    + intros name size tag Q. destruct Q.
    + intros h1 h2 h3 n1 s1 n2 s2 t1 t2 Q. destruct h1; discriminate Q.
    + intros a s Q. destruct a; discriminate Q.
    + intros tag d1 d2 d3 a Q. destruct Q.
  - (* register *)
    rename IHhistory into I, H0 into SZ, H1 into E. unfold make_smob_type in E.
    destruct (Z.leb_spec max_smob_count (numsmob st)) as [|LT]; [discriminate|].
    injection E as ET <-. pose proof (i_count _ _ I) as CNT.
    assert (NN : 0 <= numsmob st) by (unfold numsmob; lia).
    unfold max_smob_count in LT.
    assert (tag = base_tag + numsmob st) as ->.
    { unfold make_smob_tag in ET. rewrite i64_ok in ET; [congruence|]. unfold base_tag, i64_min, i64_max. lia. }
    assert (NS : numsmob {| registry := registry st ++ [Desc name size (default_fn size)]; objects := objects st |} = numsmob st + 1).
    { unfold numsmob. cbn. rewrite app_length. cbn. lia. }
    split.
    + rewrite NS, registrations_app, <- CNT. cbn [registrations]. lia.
    + rewrite NS. lia.
    + intros i d. cbn [registry]. rewrite nth_app_last. destruct (Nat.eqb_spec i (length (registry st))) as [->|NE].
      * intro Q. injection Q as <-. cbn [d_name d_size d_fn]. fold (numsmob st). split.
        -- apply in_or_app. right. left. reflexivity.
        -- intro w. rewrite last_installed_app. cbn [last_installed]. rewrite Z.eqb_refl. f_equal.
           destruct w; try reflexivity. cbn [default_fn]. destruct (Z.eqb_spec size 0), (Z.ltb_spec 0 size); try reflexivity; lia.
      * intro Q. assert (LTi : (i < length (registry st))%nat) by (apply nth_error_Some; congruence).
        destruct (i_reg _ _ I i d Q) as [A B]. split; [apply in_or_app; auto|]. intro w.
        rewrite last_installed_app. cbn [last_installed].
        destruct (Z.eqb_spec (base_tag + Z.of_nat i) (base_tag + numsmob st)) as [EQ|_]; [unfold numsmob in EQ; lia|]. apply B.
    + intros n s t Q. apply in_app_or in Q. destruct Q as [Q|[Q|[]]].
      * destruct (i_reg_rev _ _ I n s t Q) as (i & d & A & B & C). exists i, d. split; [exact A|]. split; [|exact C].
        cbn. rewrite nth_error_app1; [exact B|]. apply nth_error_Some. congruence.
      * assert (n = name) as -> by congruence. assert (s = size) as -> by congruence.
        assert (t = base_tag + numsmob st) as -> by congruence. exists (length (registry st)). eexists. split; [reflexivity|]. cbn [registry].
        rewrite nth_app_last, Nat.eqb_refl. split; [reflexivity|]. auto.
    + apply dup_step; [apply I|]. intros n1 s1 t1 n2 s2 t2 Q IN. assert (t2 = base_tag + numsmob st) as -> by congruence. clear Q.
      destruct (i_reg_rev _ _ I _ _ _ IN) as (i & d & -> & B & _).
      assert (LTi : (i < length (registry st))%nat) by (apply nth_error_Some; congruence). unfold numsmob. lia.
    + cbn [objects]. intros a s Q. destruct (i_obj _ _ I a s Q) as ((d1 & d2 & d3 & A) & B & C).
      split; [exists d1, d2, d3; apply in_or_app; auto|]. split; [rewrite NS; lia|]. intro w. rewrite last_stored_app. cbn [last_stored]. apply C.
    + cbn [objects]. intros t d1 d2 d3 a Q. apply in_app_or in Q. destruct Q as [Q|[Q|[]]]; [|discriminate].
      exact (i_obj_rev _ _ I _ _ _ _ _ Q).
  - (* register fails *)
    unfold make_smob_type in H0. destruct (max_smob_count <=? numsmob st) eqn:LM.
    + injection H0 as <-. apply inv_failed. exact IHhistory.
    + exfalso. apply Z.leb_gt in LM. unfold max_smob_count in LM.
      injection H0 as E _. unfold make_smob_tag in E. rewrite i64_ok in E; [discriminate|].
      assert (0 <= numsmob st) by (unfold numsmob; lia). unfold base_tag, i64_min, i64_max. lia.
  - (* install *)
    rename IHhistory into I, H0 into E. unfold set_smob_fn in E.
    destruct (with_tag_cases _ st tag (fun i => Ok i)) as [Q|[[Q _]|[Q R]]]; rewrite Q in E; try discriminate.
    injection E as <-. set (i0 := Z.to_nat (tag - base_tag)) in *.
    assert (NS : forall o, numsmob {| registry := update i0 (set_desc_fn w id) (registry st); objects := o |} = numsmob st).
    { intro o. unfold numsmob. cbn. rewrite update_length. reflexivity. }
    assert (TG : tag = base_tag + Z.of_nat i0) by (unfold i0; lia).
    split.
    + rewrite NS, registrations_app, <- (i_count _ _ I). cbn [registrations]. lia.
    + rewrite NS. apply I.
    + intros i d. cbn [registry]. rewrite update_nth. intro Q'.
      destruct (Nat.eqb_spec i0 i) as [<-|NE].
      * destruct (nth_error (registry st) i0) as [d0|] eqn:ND; [|discriminate]. injection Q' as <-.
        destruct (i_reg _ _ I i0 d0 ND) as [A B]. split; [apply in_or_app; auto|].
        intro w'. rewrite last_installed_app. cbn [last_installed]. rewrite TG, Z.eqb_refl. cbn [andb set_desc_fn d_fn].
        destruct w, w'; cbn [fn_eqb same_slot]; first [apply B | reflexivity].
      * destruct (i_reg _ _ I i d Q') as [A B]. split; [apply in_or_app; auto|]. intro w'.
        rewrite last_installed_app. cbn [last_installed].
        destruct (Z.eqb_spec (base_tag + Z.of_nat i) tag) as [EQ|_]; [lia|]. apply B.
    + intros n s t Q'. apply in_app_or in Q'. destruct Q' as [Q'|[Q'|[]]]; [|discriminate].
      destruct (i_reg_rev _ _ I n s t Q') as (i & d & A & B & C1 & C2). cbn [registry].
      destruct (Nat.eqb_spec i0 i) as [<-|NE].
      * exists i0, (set_desc_fn w id d). split; [exact A|]. split; [rewrite update_nth, Nat.eqb_refl, B; reflexivity|]. auto.
      * exists i, d. split; [exact A|]. split; [|auto]. rewrite update_nth.
        destruct (Nat.eqb_spec i0 i); [congruence|]. exact B.
    + apply dup_step; [apply I|discriminate].
    + cbn [objects]. intros a s Q'. destruct (i_obj _ _ I a s Q') as ((d1 & d2 & d3 & A) & B & C).
      split; [exists d1, d2, d3; apply in_or_app; auto|]. split; [rewrite NS; exact B|]. intro w'. rewrite last_stored_app. cbn [last_stored]. apply C.
    + cbn [objects]. intros t d1 d2 d3 a Q'. apply in_app_or in Q'. destruct Q' as [Q'|[Q'|[]]]; [|discriminate].
      exact (i_obj_rev _ _ I _ _ _ _ _ Q').
  - unfold set_smob_fn in H0. destruct (with_tag_cases _ st tag (fun i => Ok i)) as [Q|[[Q _]|[Q R]]]; rewrite Q in H0; try discriminate.
    injection H0 as <-. apply inv_failed. exact IHhistory.
  - (* make *)
    rename IHhistory into I, H0 into E. unfold make_smob3 in E.
    destruct (with_tag_cases _ st tag (fun i => Ok i)) as [Q|[[Q _]|[Q R]]]; rewrite Q in E; try discriminate.
    injection E as <- <-.
    assert (FR1 : forall t e1 e2 e3, ~ In (Made t e1 e2 e3 (length (objects st))) h).
    { intros t e1 e2 e3 IN. destruct (i_obj_rev _ _ I _ _ _ _ _ IN) as (s & N & _).
      assert (length (objects st) < length (objects st))%nat by (apply nth_error_Some; congruence). lia. }
    split.
    + rewrite registrations_app. change (numsmob _) with (numsmob st). rewrite (i_count _ _ I). cbn [registrations]. lia.
    + change (numsmob _) with (numsmob st). apply I.
    + cbn [registry]. intros i d N. destruct (i_reg _ _ I i d N) as [A B]. split; [apply in_or_app; auto|].
      intro w. rewrite last_installed_app. cbn [last_installed]. apply B.
    + intros n s t Q'. apply in_app_or in Q'. destruct Q' as [Q'|[Q'|[]]]; [|discriminate].
      exact (i_reg_rev _ _ I n s t Q').
    + apply dup_step; [apply I|discriminate].
    + cbn [objects]. change (numsmob _) with (numsmob st). intros a s. rewrite nth_app_last.
      destruct (Nat.eqb_spec a (length (objects st))) as [->|NE].
      * intro X. injection X as <-. cbn [s_tag]. split; [exists d1, d2, d3; apply in_or_app; right; left; reflexivity|].
        split; [lia|]. intro w. rewrite last_stored_app. cbn [last_stored]. rewrite Nat.eqb_refl. destruct w; reflexivity.
      * intro N. destruct (i_obj _ _ I a s N) as ((e1 & e2 & e3 & A) & B & C).
        split; [exists e1, e2, e3; apply in_or_app; auto|]. split; [exact B|]. intro w. rewrite last_stored_app. cbn [last_stored].
        destruct (Nat.eqb_spec a (length (objects st))); [congruence|]. apply C.
    + cbn [objects]. intros t e1 e2 e3 a Q'. apply in_app_or in Q'. destruct Q' as [Q'|[Q'|[]]].
      * destruct (i_obj_rev _ _ I _ _ _ _ _ Q') as (s & N & T). exists s. split; [|exact T].
        rewrite nth_error_app1; [exact N|]. apply nth_error_Some. congruence.
      * injection Q' as <- <- <- <- <-. eexists. rewrite nth_app_last, Nat.eqb_refl. split; reflexivity.
  - unfold make_smob3 in H0. destruct (with_tag_cases _ st tag (fun i => Ok i)) as [Q|[[Q _]|[Q R]]]; rewrite Q in H0; try discriminate.
    injection H0 as <-. apply inv_failed. exact IHhistory.
  - (* store *)
    rename IHhistory into I, H0 into E. unfold set_smob_field in E.
    destruct (nth_error (objects st) a) as [s0|] eqn:NA; [|discriminate]. injection E as <-.
    split.
    + rewrite registrations_app. change (numsmob _) with (numsmob st). rewrite (i_count _ _ I). cbn [registrations]. lia.
    + change (numsmob _) with (numsmob st). apply I.
    + cbn [registry]. intros i d N. destruct (i_reg _ _ I i d N) as [A B]. split; [apply in_or_app; auto|].
      intro w'. rewrite last_installed_app. cbn [last_installed]. apply B.
    + intros n s t Q'. apply in_app_or in Q'. destruct Q' as [Q'|[Q'|[]]]; [|discriminate].
      exact (i_reg_rev _ _ I n s t Q').
    + apply dup_step; [apply I|discriminate].
    + cbn [objects]. change (numsmob _) with (numsmob st). intros b s. rewrite update_nth.
      destruct (Nat.eqb_spec a b) as [<-|NE].
      * rewrite NA. intro X. cbn in X. injection X as <-. destruct (i_obj _ _ I a s0 NA) as ((e1 & e2 & e3 & A) & B & C).
        assert (TS : s_tag (put_field w z s0) = s_tag s0) by (destruct w; reflexivity). rewrite TS.
        split; [exists e1, e2, e3; apply in_or_app; auto|]. split; [exact B|]. intro w'.
        rewrite last_stored_app. cbn [last_stored]. rewrite Nat.eqb_refl.
        destruct w, w'; first [apply C | reflexivity].
      * intro N. destruct (i_obj _ _ I b s N) as ((e1 & e2 & e3 & A) & B & C).
        split; [exists e1, e2, e3; apply in_or_app; auto|]. split; [exact B|]. intro w'. rewrite last_stored_app. cbn [last_stored].
        destruct (Nat.eqb_spec b a); [congruence|]. apply C.
    + cbn [objects]. intros t e1 e2 e3 b Q'. apply in_app_or in Q'. destruct Q' as [Q'|[Q'|[]]]; [|discriminate].
      destruct (i_obj_rev _ _ I _ _ _ _ _ Q') as (s & N & T). rewrite update_nth.
      destruct (Nat.eqb_spec a b) as [<-|NE]; [|eauto]. rewrite N. eexists. split; [reflexivity|]. destruct w; exact T.
  - unfold set_smob_field in H0. destruct v; try (injection H0 as <-; apply inv_failed; exact IHhistory).
    destruct (nth_error (objects st) a); discriminate.
Qed.
