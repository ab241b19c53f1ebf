(** C66, C197, C198: the assertion of a type, the Scheme procedures, how smobs are
    printed, smobs as operators.  Histories: SmobSpec. *)
From Coq Require Import List ZArith Bool Lia String.
From Verif Require Import Base ParseModel PrintModel SmobModel SmobModel2 SmobSpec SmobProofs SmobProperties.
Import ListNotations.
Local Open Scope Z_scope.
Local Open Scope list_scope.

Lemma made_tag h st tag d1 d2 d3 a : history h st -> In (Made tag d1 d2 d3 a) h ->
  sane_tag tag /\ base_tag <= tag < base_tag + numsmob st /\ exists s, nth_error (objects st) a = Some s /\ s_tag s = tag.
Proof.
  intros H IM. pose proof (history_inv _ _ H) as I. destruct (i_obj_rev _ _ I _ _ _ _ _ IM) as (s & N & T).
  destruct (i_obj _ _ I _ _ N) as (_ & R & _). rewrite T in R.
  split; [|split; [lia|eauto]]. pose proof (i_max _ _ I). split; unfold i64_min, i64_max, base_tag in *; lia.
Qed.

(** scm_assert_smob_type passes on the objects of that type and fails on everything else *)
Theorem c66_assert_type : forall h st t, history h st -> sane_tag t ->
  (forall tag d1 d2 d3 a, In (Made tag d1 d2 d3 a) h -> (tag = t -> assert_smob_type t (VSmob a) st = Ok tt) /\ (tag <> t -> assert_smob_type t (VSmob a) st = Err)) /\
  (forall v, (forall a, v <> VSmob a) -> assert_smob_type t v st = Err).
Proof.
  intros h st t H S. destruct (c66_descriptor_exactly_registered h st t H S) as (o & G & _).
  split.
  - intros tag d1 d2 d3 a IM. destruct (c66_data_returned h st tag d1 d2 d3 a Data H IM) as (z & _ & _ & T). unfold assert_smob_type. rewrite T, G.
    split; intro E; destruct (Z.eqb_spec t tag); try congruence; reflexivity.
  - intros v N. unfold assert_smob_type. destruct v; try (exfalso; eapply N; reflexivity); cbn [is_smob_type bind]; rewrite G; reflexivity.
Qed.
Print Assumptions c66_assert_type.

(** scm-make-smob-type and scm-make-smob are the calls of the C interface: a string
    and an integer, taken modulo 2^64, register a type while fewer than 256 exist;
    an integer is stored, with 0 in the other fields *)
Theorem c66_scheme_register : forall h st name z, history h st ->
  (registrations h < 256 -> exists tag st', c_make_smob_type (VStr name) (VNum z) st = (Ok (VNum tag), st') /\
     history (h ++ [Registered name (z mod 18446744073709551616) tag]) st') /\
  (256 <= registrations h -> c_make_smob_type (VStr name) (VNum z) st = (Err, st)).
Proof.
  intros h st name z H. destruct (c66_limit h st name (z mod 18446744073709551616) H) as (_ & A & B).
  unfold c_make_smob_type. change (to_size_t z) with (z mod 18446744073709551616). split; intro L.
  - destruct (A L) as (tag & st' & E). rewrite E. exists tag, st'. split; [reflexivity|]. apply h_register with st; auto.
    apply Z.mod_pos_bound. reflexivity.
  - rewrite (B L). reflexivity.
Qed.
Print Assumptions c66_scheme_register.
Theorem c66_scheme_make : forall h st tag d, history h st -> sane_tag tag ->
  ((exists name size, In (Registered name size tag) h) -> exists a st', c_make_smob (VNum tag) (VNum d) st = (Ok (VSmob a), st') /\ history (h ++ [Made tag d 0 0 a]) st') /\
  ((forall name size, ~ In (Registered name size tag) h) -> c_make_smob (VNum tag) (VNum d) st = (Err, st)).
Proof.
  intros h st tag d H S. destruct (c66_make_needs_registered h st tag d 0 0 H S) as (A & B). unfold c_make_smob, make_smob. split; intro L.
  - destruct (A L) as (a & st' & E). rewrite E. exists a, st'. split; [reflexivity|]. now apply h_make with st.
  - rewrite (B L). reflexivity.
Qed.
Print Assumptions c66_scheme_make.
Theorem c66_scheme_type_errors : forall st a b,
  ((forall s, a <> VStr s) \/ (forall z, b <> VNum z) -> c_make_smob_type a b st = (Err, st)) /\
  ((forall z, a <> VNum z) \/ (forall z, b <> VNum z) -> c_make_smob a b st = (Err, st)).
Proof.
  intros st a b. split; intros [N|N]; destruct a; try reflexivity; try (exfalso; eapply N; reflexivity); destruct b; try reflexivity; exfalso; eapply N; reflexivity.
Qed.
Print Assumptions c66_scheme_type_errors.
(** scm-smob? is true of what scm-make-smob returns and of no other kind of value *)
Theorem c66_smob_p : forall st,
  (forall tag data v st', c_make_smob tag data st = (Ok v, st') -> c_smob_p v = true) /\
  (forall z, c_smob_p (VNum z) = false) /\ (forall s, c_smob_p (VStr s) = false) /\ (forall n, c_smob_p (VOther n) = false).
Proof.
  intro st. split; [|repeat split; reflexivity]. intros tag data v st' E. destruct tag, data; try discriminate E. unfold c_make_smob in E.
  destruct (make_smob _ _ _) as [[a| | | |] s1]; inversion E; reflexivity.
Qed.
Print Assumptions c66_smob_p.

(** * C197. Printing.  Unless a print function is installed, a smob is written as
    #<name data>, with the name the type was registered with, up to a null
    character, and the data stored last: as a decimal number for a type of size 0,
    as an address for the others.  An installed function is called instead. *)
Theorem c197_default : forall pointer custom h st tag d1 d2 d3 a wr name size z, history h st ->
  In (Made tag d1 d2 d3 a) h -> In (Registered name size tag) h -> last_installed h FPrint tag None = Some 1%nat -> last_stored h Data a None = Some z ->
  print_smob pointer custom a wr st =
    Ok (bs "#<" ++ c_string name ++ bs " " ++ (if size =? 0 then dec z else pointer z) ++ bs ">").
Proof.
  intros pointer custom h st tag d1 d2 d3 a wr name size z H IM IR LI LS. pose proof (history_inv _ _ H) as I.
  destruct (made_tag h st tag d1 d2 d3 a H IM) as (S & R & s & N & T).
  destruct (c66_data_returned h st tag d1 d2 d3 a Data H IM) as (z' & LS' & F & _). rewrite LS in LS'. injection LS' as <-.
  unfold smob_field, deref in F. rewrite N in F. cbn [bind get_field] in F. injection F as F.
  destruct (c66_descriptor_exactly_registered h st tag H S) as (o & G & A & B). destruct (B _ _ IR) as (d & -> & DN & DS).
  destruct (A d eq_refl) as (_ & L). specialize (L FPrint). rewrite LI in L. injection L as L.
  unfold print_smob, deref. rewrite N. cbn [bind]. rewrite T, G. cbn [bind]. rewrite <- L.
  unfold default_print, deref. rewrite N. cbn [bind]. rewrite T, (get_num_sane tag S). cbn [bind].
  destruct (Z.ltb_spec (tag - base_tag) 0); [lia|].
  unfold get_descriptor in G. rewrite (get_num_sane tag S) in G. cbn [bind] in G.
  destruct ((tag - base_tag <? 0) || (numsmob st <=? tag - base_tag)); [discriminate|]. injection G as G. rewrite G, DN, DS, F.
  assert (SZ : 0 <= size).
  { clear -H IR. induction H; [destruct IR|..]; apply in_app_or in IR; destruct IR as [IR|[IR|[]]]; auto; try discriminate. injection IR as -> -> ->. lia. }
  destruct (Z.ltb_spec 0 size), (Z.eqb_spec size 0); try lia; rewrite <- ?app_assoc; reflexivity.
Qed.
Print Assumptions c197_default.
Theorem c197_installed : forall pointer custom h st tag d1 d2 d3 a wr id, history h st ->
  In (Made tag d1 d2 d3 a) h -> last_installed h FPrint tag None = Some (S (S id)) -> print_smob pointer custom a wr st = Ok (custom (S (S id)) a wr).
Proof.
  intros pointer custom h st tag d1 d2 d3 a wr id H IM LI.
  destruct (made_tag h st tag d1 d2 d3 a H IM) as (S & R & s & N & T).
  destruct (c66_descriptor_exactly_registered h st tag H S) as (o & G & A & B).
  unfold print_smob, deref. rewrite N. cbn [bind]. rewrite T, G. cbn [bind].
  destruct o as [d|].
  - destruct (A d eq_refl) as (_ & L). specialize (L FPrint). rewrite LI in L. injection L as <-. reflexivity.
  - exfalso. unfold get_descriptor in G. rewrite (get_num_sane tag S) in G. cbn [bind] in G.
    destruct ((tag - base_tag <? 0) || (numsmob st <=? tag - base_tag)) eqn:Q.
    + apply orb_prop in Q as [Q|Q]; [apply Z.ltb_lt in Q|apply Z.leb_le in Q]; lia.
    + injection G as G. apply nth_error_None in G. unfold numsmob in R. lia.
Qed.
Print Assumptions c197_installed.
Example c197_ex : exists st, history ex_history st /\ print_smob (fun _ => bs "0x7") (fun _ _ _ => []) 1 true st = Ok (bs "#<p 0x7>") /\
  print_smob (fun _ => []) (fun id a wr => bs "image") 0 true st = Ok (bs "image").
Proof.
  destruct c66_ex as (st & H & _). exists st. split; [exact H|]. split.
  - rewrite (c197_default _ _ _ _ 16777217 7 8 9 1 true [112] 8 7 H); [reflexivity|cbn; tauto|cbn; tauto|reflexivity|reflexivity].
  - apply (c197_installed (fun _ => []) (fun id a wr => bs "image") _ _ 16777216 42 0 0 0 true 3 H); [cbn; tauto|reflexivity].
Qed.
Example c197_ex_text : bs "#<" ++ c_string (bs "image") ++ bs " " ++ dec (-42) ++ bs ">" = bs "#<image -42>". Proof. vm_compute. reflexivity. Qed.

(** * C198. A smob as operator.  With n operands, n at most 3, and an apply function
    installed for n: the operands are evaluated from left to right and the function
    is called on the smob and their values.  Otherwise the call is an error, and no
    operand is evaluated. *)
Inductive values_of {X V W} (ev : X -> W -> option (V * W)) : list X -> W -> list V -> W -> Prop :=
| vo_nil w : values_of ev [] w [] w
| vo_cons x r w v w1 vs w2 : ev x w = Some (v, w1) -> values_of ev r w1 vs w2 -> values_of ev (x :: r) w (v :: vs) w2.
Definition slot_for (n : nat) (s : fn) : Prop :=
  (n = 0%nat /\ s = FApply0) \/ (n = 1%nat /\ s = FApply1) \/ (n = 2%nat /\ s = FApply2) \/ (n = 3%nat /\ s = FApply3).
Lemma operands_values {X V W} (ev : X -> W -> option (V * W)) : forall l w vs w', values_of ev l w vs w' -> operands X V W ev l w = Some (vs, w').
Proof. induction 1 as [|x r w v w1 vs w2 E _ IH]; cbn [operands]; [reflexivity|]. now rewrite E, IH. Qed.
Lemma slot_of h st tag d1 d2 d3 a (H : history h st) (IM : In (Made tag d1 d2 d3 a) h) w :
  exists s d, deref st a = Ok s /\ get_descriptor st (s_tag s) = Ok (Some d) /\ last_installed h w tag None = Some (d_fn d w).
Proof.
  destruct (made_tag h st tag d1 d2 d3 a H IM) as (S & R & s & N & T).
  destruct (c66_descriptor_exactly_registered h st tag H S) as (o & G & A & B). destruct o as [d|].
  - exists s, d. unfold deref. rewrite N, T. split; [reflexivity|]. split; [exact G|]. now apply A.
  - exfalso. unfold get_descriptor in G. rewrite (get_num_sane tag S) in G. cbn [bind] in G.
    destruct ((tag - base_tag <? 0) || (numsmob st <=? tag - base_tag)) eqn:Q.
    + apply orb_prop in Q as [Q|Q]; [apply Z.ltb_lt in Q|apply Z.leb_le in Q]; lia.
    + injection G as G. apply nth_error_None in G. unfold numsmob in R. lia.
Qed.
Theorem c198_called : forall X V W ev fcall h st tag d1 d2 d3 a slot id (args : list X) (w : W) (vs : list V) w1, history h st ->
  In (Made tag d1 d2 d3 a) h -> slot_for (length args) slot -> last_installed h slot tag None = Some (S id) ->
  values_of ev args w vs w1 ->
  apply_smob X V W ev fcall st a args w = match fcall (S id) a vs w1 with Some (v, w2) => Gives v w2 | None => Gone end.
Proof.
  intros X V W ev fcall h st tag d1 d2 d3 a slot id args w vs w1 H IM SL LI VO.
  destruct (slot_of h st tag d1 d2 d3 a H IM slot) as (s & d & E1 & E2 & E3). rewrite LI in E3. injection E3 as E3.
  unfold apply_smob. rewrite E1, E2, (operands_values ev args w vs w1 VO).
  destruct SL as [[-> ->]|[[-> ->]|[[-> ->]|[-> ->]]]]; cbn [apply_slot]; rewrite <- E3; reflexivity.
Qed.
Print Assumptions c198_called.
Theorem c198_refused : forall X V W ev fcall h st tag d1 d2 d3 a (args : list X) (w : W), history h st ->
  In (Made tag d1 d2 d3 a) h -> (forall slot id, slot_for (length args) slot -> last_installed h slot tag None <> Some (S id)) ->
  apply_smob X V W ev fcall st a args w = Refused w.
Proof.
  intros X V W ev fcall h st tag d1 d2 d3 a args w H IM NO. unfold apply_smob, slot_for in *.
  destruct (length args) as [|[|[|[|n]]]].
  1-4: match goal with |- context [apply_slot ?k] => destruct (apply_slot k) as [slot|] eqn:Q; [|discriminate] end;
    destruct (slot_of h st tag d1 d2 d3 a H IM slot) as (s & d & E1 & E2 & E3); rewrite E1, E2;
    cbn in Q; injection Q as Q; subst slot; destruct (d_fn d _) as [|id]; [reflexivity|]; exfalso; eapply NO; [|exact E3]; intuition congruence.
  destruct (slot_of h st tag d1 d2 d3 a H IM FApply0) as (s & d & E1 & E2 & E3). rewrite E1, E2. reflexivity.
Qed.
Print Assumptions c198_refused.
(* the hypotheses are met: a type whose second apply function was set *)
Example c198_ex : exists st, history [Registered [105] 0 16777216; Made 16777216 42 0 0 0%nat; Installed FApply2 16777216 7%nat] st /\
  apply_smob Z Z (list Z) (fun x w => Some (x * 10, x :: w)) (fun id a vs w => Some (fold_left Z.add vs (Z.of_nat id), w)) st 0 [1; 2] [] = Gives 37 [2; 1] /\
  apply_smob Z Z (list Z) (fun x w => Some (x * 10, x :: w)) (fun id a vs w => Some (0, w)) st 0 [1] [] = Refused [].
Proof.
  pose proof h_start as H. eapply (h_register _ _ [105] 0) in H; [|lia|reflexivity]. eapply (h_make _ _ 16777216 42 0 0) in H; [|reflexivity].
  eapply (h_install _ _ FApply2 16777216 7%nat) in H; [|reflexivity]. eexists. split; [exact H|]. split; reflexivity.
Qed.
