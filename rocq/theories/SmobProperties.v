(** C66: the smob registry. *)
From Coq Require Import List ZArith Bool Lia.
From Verif Require Import Base SmobModel SmobSpec SmobProofs.
Import ListNotations.
Local Open Scope Z_scope.
Local Open Scope list_scope.

(** A later registration returns a larger tag; so tags are distinct. *)
Theorem c66_tags_distinct : forall h st h1 h2 h3 n1 s1 t1 n2 s2 t2,
  history h st -> h = h1 ++ Registered n1 s1 t1 :: h2 ++ Registered n2 s2 t2 :: h3 -> t1 < t2.
Proof. intros h st h1 h2 h3 n1 s1 t1 n2 s2 t2 H E. eapply (i_dup _ _ (history_inv _ _ H)). exact E. Qed.

(** A descriptor is found exactly for the tags returned by a registration; it
    carries the registered name and size and, in each slot, the function last
    installed for that tag (the default if none was). *)
Theorem c66_descriptor_exactly_registered : forall h st tag, history h st -> sane_tag tag ->
  exists o, get_descriptor st tag = Ok o /\
    (forall d, o = Some d -> In (Registered (d_name d) (d_size d) tag) h /\
                             forall w, last_installed h w tag None = Some (d_fn d w)) /\
    (forall name size, In (Registered name size tag) h ->
       exists d, o = Some d /\ d_name d = name /\ d_size d = size).
Proof.
  intros h st tag H S. pose proof (history_inv _ _ H) as I.
  unfold get_descriptor. rewrite (get_num_sane tag S). cbn [bind].
  destruct ((tag - base_tag <? 0) || (numsmob st <=? tag - base_tag)) eqn:G.
  - exists None. split; [reflexivity|]. split; [discriminate|]. intros name size IN.
    destruct (i_reg_rev _ _ I _ _ _ IN) as (i & d & -> & N & _).
    assert (i < length (registry st))%nat by (apply nth_error_Some; congruence).
    apply orb_true_iff in G. unfold numsmob in G. rewrite Z.ltb_lt, Z.leb_le in G. lia.
  - apply orb_false_iff in G. rewrite Z.ltb_ge, Z.leb_gt in G. eexists. split; [reflexivity|]. split.
    + intros d N. destruct (i_reg _ _ I _ _ N) as [A B].
      replace (base_tag + Z.of_nat (Z.to_nat (tag - base_tag))) with tag in A, B by lia. auto.
    + intros name size IN. destruct (i_reg_rev _ _ I _ _ _ IN) as (i & d & -> & N & Q). exists d. split; [|exact Q].
      replace (Z.to_nat (base_tag + Z.of_nat i - base_tag)) with i by lia. exact N.
Qed.

(** A registration succeeds exactly while fewer than 256 types exist, and no
    history registers more. *)
Theorem c66_limit : forall h st name size, history h st ->
  registrations h <= 256 /\
  (registrations h < 256 -> exists tag st', make_smob_type name size st = (Ok tag, st')) /\
  (256 <= registrations h -> make_smob_type name size st = (Err, st)).
Proof.
  intros h st name size H. pose proof (history_inv _ _ H) as I. rewrite <- (i_count _ _ I).
  split; [apply I|]. unfold make_smob_type, max_smob_count. split; intro L.
  - destruct (Z.leb_spec 256 (numsmob st)); [lia|]. unfold make_smob_tag. rewrite i64_ok; [eauto|].
    assert (0 <= numsmob st) by (unfold numsmob; lia). unfold base_tag, i64_min, i64_max. lia.
  - destruct (Z.leb_spec 256 (numsmob st)); [reflexivity|lia].
Qed.

(** Objects can be made exactly for registered tags; for others the call
    raises an error and changes nothing. *)
Theorem c66_make_needs_registered : forall h st tag d1 d2 d3, history h st -> sane_tag tag ->
  ((exists name size, In (Registered name size tag) h) ->
     exists a st', make_smob3 tag d1 d2 d3 st = (Ok a, st')) /\
  ((forall name size, ~ In (Registered name size tag) h) -> make_smob3 tag d1 d2 d3 st = (Err, st)).
Proof.
  intros h st tag d1 d2 d3 H S. pose proof (history_inv _ _ H) as I. unfold make_smob3.
  destruct (with_tag_cases _ st tag (fun i => Ok i)) as [Q|[[Q R]|[Q R]]].
  - exfalso. unfold with_tag in Q. rewrite (get_num_sane tag S) in Q. cbn in Q.
    destruct ((tag - base_tag <? 0) || (numsmob st <=? tag - base_tag)); discriminate.
  - rewrite Q. split; [|auto]. intros (name & size & IN). destruct (i_reg_rev _ _ I _ _ _ IN) as (i & d & -> & N & _).
    assert (i < length (registry st))%nat by (apply nth_error_Some; congruence). unfold numsmob in R. lia.
  - rewrite Q. split; [eauto|]. intro NO. exfalso.
    destruct (nth_error (registry st) (Z.to_nat (tag - base_tag))) as [d|] eqn:N.
    + destruct (i_reg _ _ I _ _ N) as [A _].
      replace (base_tag + Z.of_nat (Z.to_nat (tag - base_tag))) with tag in A by lia. exact (NO _ _ A).
    + apply nth_error_None in N. unfold numsmob in R. lia.
Qed.

(** After any history, the accessors return the data the object was made with
    or, if it was overwritten, the value stored last; its type never changes. *)
Theorem c66_data_returned : forall h st tag d1 d2 d3 a w, history h st ->
  In (Made tag d1 d2 d3 a) h ->
  exists z, last_stored h w a None = Some z /\ smob_field w (VSmob a) st = Ok z /\
    forall t, is_smob_type (VSmob a) t st = Ok (t =? tag).
Proof.
  intros h st tag d1 d2 d3 a w H IN. pose proof (history_inv _ _ H) as I.
  destruct (i_obj_rev _ _ I _ _ _ _ _ IN) as (s & N & T). destruct (i_obj _ _ I _ _ N) as (_ & _ & LS).
  exists (get_field w s). split; [apply LS|]. unfold smob_field, is_smob_type, deref. rewrite N. cbn [bind].
  split; [reflexivity|]. intro t. rewrite T, Z.eqb_sym. reflexivity.
Qed.

(** Different objects have different addresses, and under the default equality
    an object is equal? to itself only. *)
Theorem c66_objects_distinct : forall h st h1 h2 h3 t1 a1 b1 c1 o1 t2 a2 b2 c2 o2,
  history h st -> h = h1 ++ Made t1 a1 b1 c1 o1 :: h2 ++ Made t2 a2 b2 c2 o2 :: h3 -> o1 <> o2.
Proof.
  intros h st h1 h2 h3 t1 a1 b1 c1 o1 t2 a2 b2 c2 o2 H. revert h1 h2 h3.
  induction H; intros h1 h2 h3 Q;
    try (destruct (snoc_split _ _ _ _ _ _ Q) as [(Q1 & _ & _)|(h2' & Q1 & ->)];
         [destruct h2; discriminate Q1|];
         symmetry in Q1; destruct (snoc_split _ _ _ _ _ _ Q1) as [(-> & Q2 & ->)|(h3' & -> & ->)];
         [try discriminate Q2|eapply IHhistory; reflexivity]).
  - destruct h1; discriminate.
  - injection Q2 as <- <- <- <- <-. pose proof (history_inv _ _ H) as I.
    assert (IN : In (Made t1 a1 b1 c1 o1) (h1 ++ Made t1 a1 b1 c1 o1 :: h2')) by (apply in_or_app; right; left; reflexivity).
    destruct (i_obj_rev _ _ I _ _ _ _ _ IN) as (s & N & _). unfold make_smob3 in H0.
    destruct (with_tag st t2 (fun i => Ok i)); try discriminate. injection H0 as <- _.
    intros ->. assert (length (objects st) < length (objects st))%nat by (apply nth_error_Some; congruence). lia.
Qed.

Theorem c66_default_equality : forall h st custom a b t1 x1 y1 z1 t2 x2 y2 z2, history h st ->
  In (Made t1 x1 y1 z1 a) h -> In (Made t2 x2 y2 z2 b) h ->
  last_installed h FEqualp t1 None = Some 1%nat ->
  smob_equal custom a b st = Ok (Nat.eqb a b).
Proof.
  intros h st custom a b t1 x1 y1 z1 t2 x2 y2 z2 H IA IB LI. pose proof (history_inv _ _ H) as I.
  destruct (i_obj_rev _ _ I _ _ _ _ _ IA) as (s1 & N1 & T1). destruct (i_obj_rev _ _ I _ _ _ _ _ IB) as (s2 & N2 & T2).
  unfold smob_equal, deref. rewrite N1, N2. cbn [bind]. rewrite T1, T2.
  destruct (Z.eqb_spec t1 t2) as [E|NE]; cbn [negb].
  - destruct (i_obj _ _ I _ _ N1) as (_ & R & _). rewrite T1 in R.
    assert (S : sane_tag t1).
    { pose proof (i_max _ _ I). split; [|]; unfold i64_min, i64_max, base_tag in *; lia. }
    destruct (c66_descriptor_exactly_registered h st t1 H S) as (o & -> & A & B). cbn [bind].
    destruct o as [d|]; [|reflexivity]. destruct (A d eq_refl) as [_ L]. specialize (L FEqualp). rewrite LI in L.
    injection L as <-. reflexivity.
  - destruct (Nat.eqb_spec a b) as [->|]; [|reflexivity]. congruence.
Qed.

(** A concrete history meeting the hypotheses above. *)
Definition ex_history : list event :=
  [Registered [105] 0 16777216; Registered [112] 8 16777217; Made 16777216 42 0 0 0%nat;
   Made 16777217 7 8 9 1%nat; Failed; Stored Data2 1%nat 80; Installed FPrint 16777216 5%nat].
Example c66_ex : exists st, history ex_history st /\ smob_field Data2 (VSmob 1) st = Ok 80 /\
  smob_field Data (VSmob 0) st = Ok 42.
Proof.
  pose proof h_start as H.
  eapply (h_register _ _ [105] 0) in H; [|lia|reflexivity].
  eapply (h_register _ _ [112] 8) in H; [|lia|reflexivity].
  eapply (h_make _ _ 16777216 42 0 0) in H; [|reflexivity].
  eapply (h_make _ _ 16777217 7 8 9) in H; [|reflexivity].
  eapply (h_make_fail _ _ 5 0 0 0) in H; [|reflexivity].
  eapply (h_store _ _ Data2 1%nat 80) in H; [|reflexivity].
  eapply (h_install _ _ FPrint 16777216 5%nat) in H; [|reflexivity].
  eexists. split; [exact H|]. split; reflexivity.
Qed.

(** At the Scheme level: whatever happens in between, scm-smob-data gives back
    the number stored by scm-make-smob when the type was registered with size
    0 ... *)
Theorem c66_scheme_roundtrip : forall h st tag d1 d2 d3 a name z, history h st ->
  In (Made tag d1 d2 d3 a) h -> In (Registered name 0 tag) h ->
  last_stored h Data a None = Some z ->
  c_smob_data (VSmob a) st = Ok (VNum z).
Proof.
  intros h st tag d1 d2 d3 a name z H IM IR LS. pose proof (history_inv _ _ H) as I.
  destruct (i_obj_rev _ _ I _ _ _ _ _ IM) as (s & N & T). destruct (i_obj _ _ I _ _ N) as (_ & R & L).
  rewrite (L Data) in LS. cbn in LS. injection LS as <-.
  unfold c_smob_data, deref. rewrite N. cbn [bind]. rewrite T in *.
  assert (S : sane_tag tag) by (pose proof (i_max _ _ I); split; unfold i64_min, i64_max, base_tag in *; lia).
  destruct (c66_descriptor_exactly_registered h st tag H S) as (o & -> & _ & B). cbn [bind].
  destruct (B _ _ IR) as (d & -> & _ & SZ). rewrite SZ. reflexivity.
Qed.

(** ... and is an error for every other size, although scm-make-smob accepted
    the data: the clause "data stored is returned" is false there. *)
Theorem c104_scheme_sized_refuted : forall h st tag d1 d2 d3 a name size, history h st ->
  In (Made tag d1 d2 d3 a) h -> In (Registered name size tag) h -> 0 < size ->
  c_smob_data (VSmob a) st = Err.
Proof.
  intros h st tag d1 d2 d3 a name size H IM IR SZ0. pose proof (history_inv _ _ H) as I.
  destruct (i_obj_rev _ _ I _ _ _ _ _ IM) as (s & N & T). destruct (i_obj _ _ I _ _ N) as (_ & R & L).
  unfold c_smob_data, deref. rewrite N. cbn [bind]. rewrite T in *.
  assert (S : sane_tag tag) by (pose proof (i_max _ _ I); split; unfold i64_min, i64_max, base_tag in *; lia).
  destruct (c66_descriptor_exactly_registered h st tag H S) as (o & -> & _ & B). cbn [bind].
  destruct (B _ _ IR) as (d & -> & _ & SZ). rewrite SZ. destruct (Z.ltb_spec 0 size); [reflexivity|lia].
Qed.

(** From Scheme: a negative size is a huge one. *)
Example c66_negative_size : exists st t st2 v,
  c_make_smob_type (VStr [105]) (VNum (-1)) init_smob = (Ok (VNum t), st) /\
  c_make_smob (VNum t) (VNum 42) st = (Ok v, st2) /\ c_smob_data v st2 = Err.
Proof. do 4 eexists. split; [reflexivity|]. split; reflexivity. Qed.

(** "Descriptors are found exactly for registered tags" is undefined for tags
    near the smallest integer, which a program can pass to scm-make-smob: the
    subtraction in get_smob_num overflows. *)
Theorem c104_tag_overflow_refuted : forall st tag d,
  i64_min <= tag < i64_min + 16777216 ->
  c_make_smob (VNum tag) (VNum d) st = (UB, st).
Proof.
  intros st tag d H. unfold c_make_smob, make_smob, make_smob3, with_tag, get_smob_num, i64.
  destruct (in64 (tag - base_tag)) eqn:E; [|reflexivity]. apply in64_iff in E. unfold base_tag in E. lia.
Qed.
Example c66_tag_overflow_ex : i64_min <= i64_min < i64_min + 16777216.
Proof. unfold i64_min; lia. Qed.

(** Wrong types are errors that change nothing. *)
Theorem c66_type_errors : forall st v w z,
  (forall a, v <> VSmob a) ->
  smob_field w v st = Err /\ set_smob_field w v z st = (Err, st) /\ c_smob_data v st = Err /\ c_smob_p v = false.
Proof. intros st v w z H. destruct v; try (exfalso; eapply H; reflexivity); repeat split. Qed.
