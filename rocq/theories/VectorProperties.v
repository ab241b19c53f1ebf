(** C25, C26: statements about vectors.  An object with content [OVec es] is the
    vector of the elements [es]. *)
From Coq Require Import Lia.
From Verif Require Import Base NumModel HeapModel ListModel ListSpec ListProofs ListWitness VectorModel VectorProofs.

(** C25 *)
Theorem c25_make : forall h len z fill, wf h -> h_obj h len = Some (ONum z) -> 0 <= z ->
  exists v h' es, make_vector len (Some fill) h = Ok (v, h') /\ wf h' /\ extends h h' /\ h_obj h v = None /\
    h_obj h' v = Some (OVec es) /\ Z.of_nat (length es) = z /\ (forall i x, nth_error es i = Some x -> x = fill).
Proof.
  intros h len z fill W O L. unfold make_vector. rewrite (bind_ok _ _ _ _ _ (get_ok _ _ _ O)). cbv iota beta.
  destruct (Z.ltb_spec z 0); [lia|]. rewrite alloc_eq. do 3 eexists. split; [reflexivity|].
  split; [now apply wf_halloc|]. split; [now apply extends_halloc|]. split; [apply W; lia|].
  split; [cbn; apply upd_same|]. rewrite repeat_length. split; [lia|].
  intros i x E. apply nth_error_In in E. eapply repeat_spec; eauto.
Qed.
Print Assumptions c25_make.
Theorem c25_make_negative : forall h len z fill, h_obj h len = Some (ONum z) -> z < 0 ->
  make_vector len fill h = Err.
Proof.
  intros h len z fill O L. unfold make_vector. rewrite (bind_ok _ _ _ _ _ (get_ok _ _ _ O)). cbv iota beta.
  destruct (Z.ltb_spec z 0); [reflexivity|lia].
Qed.
Print Assumptions c25_make_negative.
Theorem c25_length : forall h v es, wf h -> h_obj h v = Some (OVec es) ->
  exists n h', vector_length v h = Ok (n, h') /\ h_obj h' n = Some (ONum (Z.of_nat (length es))) /\ extends h h'.
Proof.
  intros h v es W O. unfold vector_length. rewrite (bind_ok _ _ _ _ _ (get_ok _ _ _ O)). rewrite alloc_eq.
  do 2 eexists. split; [reflexivity|]. split; [cbn; apply upd_same|now apply extends_halloc].
Qed.
Print Assumptions c25_length.
(** vector-ref answers exactly for 0 <= k < length *)
Theorem c25_ref : forall h v k es z, h_obj h v = Some (OVec es) -> h_obj h k = Some (ONum z) ->
  (0 <= z < Z.of_nat (length es) -> exists x, nth_error es (Z.to_nat z) = Some x /\ vector_ref v k h = Ok (x, h)) /\
  (~ 0 <= z < Z.of_nat (length es) -> vector_ref v k h = Err).
Proof.
  intros h v k es z O K. unfold vector_ref. rewrite (bind_ok _ _ _ _ _ (get_ok _ _ _ O)). cbv iota beta.
  rewrite (bind_ok _ _ _ _ _ (get_ok _ _ _ K)). cbv iota beta.
  destruct (Z.ltb_spec z 0), (Z.leb_spec (Z.of_nat (length es)) z); cbn [orb]; split; intros L; try lia; try reflexivity.
  destruct (nth_error es (Z.to_nat z)) eqn:E; [eauto|]. apply nth_error_None in E. lia.
Qed.
Print Assumptions c25_ref.
(** vector-set! succeeds exactly there, and changes that index of that vector
    and nothing else *)
Theorem c25_set_in_range : forall h v k x es z, h_obj h v = Some (OVec es) -> h_obj h k = Some (ONum z) ->
  0 <= z < Z.of_nat (length es) ->
  exists h' es', vector_set v k x h = Ok (none_a, h') /\ h_obj h' v = Some (OVec es') /\
    length es' = length es /\ nth_error es' (Z.to_nat z) = Some x /\
    (forall j, j <> Z.to_nat z -> nth_error es' j = nth_error es j) /\
    (forall a, a <> v -> h_obj h' a = h_obj h a) /\ h_cell h' = h_cell h.
Proof.
  intros h v k x es z O K L. unfold vector_set. rewrite (bind_ok _ _ _ _ _ (get_ok _ _ _ O)). cbv iota beta.
  rewrite (bind_ok _ _ _ _ _ (get_ok _ _ _ K)). cbv iota beta.
  destruct (Z.ltb_spec z 0), (Z.leb_spec (Z.of_nat (length es)) z); cbn [orb]; try lia.
  destruct (Nat.ltb_spec (Z.to_nat z) (length es)); [|lia].
  erewrite bind_ok; [|unfold seto; rewrite O; reflexivity]. do 2 eexists. split; [reflexivity|]. cbn.
  split; [apply upd_same|]. split; [apply set_elem_length|].
  split; [rewrite set_elem_nth, Nat.eqb_refl by auto; reflexivity|]. split.
  - intros j N. rewrite set_elem_nth by auto. destruct (Nat.eqb_spec j (Z.to_nat z)); congruence.
  - split; auto. intros a N. now apply upd_other.
Qed.
Print Assumptions c25_set_in_range.
Theorem c25_set_out_of_range : forall h v k x es z, h_obj h v = Some (OVec es) -> h_obj h k = Some (ONum z) ->
  ~ 0 <= z < Z.of_nat (length es) -> vector_set v k x h = Err.
Proof.
  intros h v k x es z O K L. unfold vector_set. rewrite (bind_ok _ _ _ _ _ (get_ok _ _ _ O)). cbv iota beta.
  rewrite (bind_ok _ _ _ _ _ (get_ok _ _ _ K)). cbv iota beta.
  destruct (Z.ltb_spec z 0), (Z.leb_spec (Z.of_nat (length es)) z); cbn [orb]; try lia; reflexivity.
Qed.
Print Assumptions c25_set_out_of_range.
(** reading back through any index object *)
Theorem c25_ref_after_set : forall h v k x es z j w, h_obj h v = Some (OVec es) -> h_obj h k = Some (ONum z) ->
  0 <= z < Z.of_nat (length es) -> h_obj h j = Some (ONum w) ->
  exists h', vector_set v k x h = Ok (none_a, h') /\
    (w = z -> vector_ref v j h' = Ok (x, h')) /\
    (w <> z -> forall y, vector_ref v j h = Ok (y, h) -> vector_ref v j h' = Ok (y, h')).
Proof.
  intros h v k x es z j w O K L J.
  destruct (c25_set_in_range h v k x es z O K L) as (h'&es'&P&O'&Le&Nx&No&Ob&_). exists h'. split; auto.
  assert (J' : h_obj h' j = Some (ONum w)).
  { rewrite Ob; auto. intros ->. congruence. }
  split.
  - intros ->. destruct (c25_ref h' v j es' z O' J') as [R _]. destruct (R ltac:(lia)) as (y&E&Q). congruence.
  - intros N y Q. destruct (c25_ref h v j es w O J) as [R1 R2]. destruct (c25_ref h' v j es' w O' J') as [R' _].
    destruct (Z.le_gt_cases 0 w), (Z.lt_ge_cases w (Z.of_nat (length es))); try (rewrite R2 in Q by lia; discriminate).
    destruct (R1 ltac:(lia)) as (y1&E1&Q1). destruct (R' ltac:(lia)) as (y2&E2&Q2).
    rewrite No in E2 by lia. congruence.
Qed.
Print Assumptions c25_ref_after_set.
Theorem c25_type_errors : forall h v k x o ok, h_obj h v = Some o -> h_obj h k = Some ok ->
  (forall es, o <> OVec es) \/ (forall z, ok <> ONum z) ->
  vector_ref v k h = Err /\ vector_set v k x h = Err.
Proof.
  intros h v k x o ok O K D. unfold vector_ref, vector_set. rewrite !(bind_ok _ _ _ _ _ (get_ok _ _ _ O)).
  destruct o; auto. rewrite !(bind_ok _ _ _ _ _ (get_ok _ _ _ K)). destruct ok; auto.
  destruct D as [D|D]; exfalso; eapply D; eauto.
Qed.
Print Assumptions c25_type_errors.
(** the vector made by (vector a ...) *)
Theorem c25_vector : forall h args, wf h -> exists v h', vector args h = Ok (v, h') /\ h_obj h' v = Some (OVec args) /\
  h_obj h v = None /\ extends h h' /\ wf h'.
Proof.
  intros h args W. unfold vector. rewrite alloc_eq. do 2 eexists. split; [reflexivity|]. split; [cbn; apply upd_same|].
  split; [apply W; lia|]. split; [now apply extends_halloc|now apply wf_halloc].
Qed.
Print Assumptions c25_vector.
(** vector #(4 5 6) at address 40, index 2 at 21 in ex_heap *)
Example c25_nonvacuous :
  match vector [4; 5; 6]%nat ex_heap with
  | Ok (v, h) =>
     match vector_set v 21%nat 9%nat h with
     | Ok (_, h') => match vector_ref v 21%nat h' with Ok (x, _) => x | _ => 0%nat end
     | _ => 0%nat end
  | _ => 0%nat end = 9%nat /\ h_obj ex_heap 21%nat = Some (ONum 2).
Proof. split; vm_compute; reflexivity. Qed.

(** C26 *)
Theorem c26_vector_to_list : forall h v es, wf h -> h_obj h v = Some (OVec es) ->
  Z.of_nat (length es) < 2 ^ 31 ->
  exists l h', vector_to_list v h = Ok (l, h') /\ wf h' /\ extends h h' /\ is_list h' l es.
Proof.
  intros h v es W O L. destruct es as [|e r].
  - unfold vector_to_list. rewrite (bind_ok _ _ _ _ _ (get_ok _ _ _ O)). cbv iota beta. exists nil_a, h.
    split; [reflexivity|]. split; auto. split; [apply extends_refl|]. exists []. left. split; auto. apply W.
  - assert (T : to_int (Z.of_nat (length (e :: r))) = Z.of_nat (length (e :: r))) by (apply to_int_small; lia).
    destruct (vtl_general h v (e :: r) W O) as (l&h'&P&W'&X&I); [discriminate|lia|].
    rewrite T, Nat2Z.id, firstn_all in I. eauto 6.
Qed.
Print Assumptions c26_vector_to_list.
(** longer vectors lose elements: the length is truncated to a C int *)
Theorem c126_long_vector_to_list_refuted : forall h v es n, wf h -> h_obj h v = Some (OVec es) ->
  Z.of_nat (length es) = 2 ^ 32 + n -> 0 <= n < 2 ^ 31 ->
  exists l h', vector_to_list v h = Ok (l, h') /\ is_list h' l (firstn (Z.to_nat n) es) /\ firstn (Z.to_nat n) es <> es.
Proof.
  intros h v es n W O L R.
  assert (T : to_int (Z.of_nat (length es)) = n).
  { rewrite L. unfold to_int. rewrite <- Z.add_mod_idemp_l by lia. rewrite Z.mod_same by lia. rewrite Z.mod_small by lia.
    rewrite Z.add_0_l. destruct (Z.ltb_spec n (2 ^ 31)); lia. }
  destruct (vtl_general h v es W O) as (l&h'&P&W'&X&I).
  { intros ->. cbn [length] in L. lia. }
  { lia. }
  rewrite T in I. exists l, h'. split; auto. split; auto. intros E. apply (f_equal (@length addr)) in E.
  rewrite firstn_length in E. lia.
Qed.
Print Assumptions c126_long_vector_to_list_refuted.
Theorem c26_list_to_vector : forall h l xs fuel, wf h -> is_list h l xs -> (length xs <= fuel)%nat ->
  exists v h', list_to_vector fuel l h = Ok (v, h') /\ wf h' /\ extends h h' /\ h_obj h v = None /\ h_obj h' v = Some (OVec xs).
Proof.
  intros h l xs fuel W (cs&[(N&->&->)|(c&O&C)]) L; unfold list_to_vector.
  - rewrite (bind_ok _ _ _ _ _ (get_ok _ _ _ N)). rewrite alloc_eq. do 2 eexists. split; [reflexivity|].
    split; [now apply wf_halloc|]. split; [now apply extends_halloc|]. split; [apply W; lia|cbn; apply upd_same].
  - rewrite (bind_ok _ _ _ _ _ (get_ok _ _ _ O)). cbv iota beta. rewrite (bind_ok _ _ _ _ _ (elems_loop_ok _ _ _ _ C _ L)).
    rewrite alloc_eq. do 2 eexists. split; [reflexivity|].
    split; [now apply wf_halloc|]. split; [now apply extends_halloc|]. split; [apply W; lia|cbn; apply upd_same].
Qed.
Print Assumptions c26_list_to_vector.
(** improper lists are not rejected: the final cdr becomes an element *)
Theorem c26_improper_list_to_vector : forall h l xs d fuel, wf h -> is_dotted_list h l xs d -> (S (length xs) <= fuel)%nat ->
  exists v h', list_to_vector fuel l h = Ok (v, h') /\ h_obj h' v = Some (OVec (xs ++ [d])).
Proof.
  intros h l xs d fuel W (c&cs&O&N&C) L; unfold list_to_vector.
  rewrite (bind_ok _ _ _ _ _ (get_ok _ _ _ O)). cbv iota beta. rewrite (bind_ok _ _ _ _ _ (elems_loop_dotted _ _ _ _ _ C _ L)).
  rewrite alloc_eq. do 2 eexists. split; [reflexivity|cbn; apply upd_same].
Qed.
Print Assumptions c26_improper_list_to_vector.
Theorem c26_round_trips : forall h fuel,
  wf h ->
  (forall v es, h_obj h v = Some (OVec es) -> Z.of_nat (length es) < 2 ^ 31 -> (length es <= fuel)%nat ->
     exists l h1 w h2, vector_to_list v h = Ok (l, h1) /\ list_to_vector fuel l h1 = Ok (w, h2) /\
       h_obj h2 w = Some (OVec es) /\ w <> v) /\
  (forall l xs, is_list h l xs -> Z.of_nat (length xs) < 2 ^ 31 -> (length xs <= fuel)%nat ->
     exists v h1 l2 h2, list_to_vector fuel l h = Ok (v, h1) /\ vector_to_list v h1 = Ok (l2, h2) /\
       is_list h2 l2 xs /\ is_list h2 l xs).
Proof.
  intros h fuel W. split.
  - intros v es O L F. destruct (c26_vector_to_list h v es W O L) as (l&h1&P&W1&X1&I).
    destruct (c26_list_to_vector h1 l es fuel W1 I F) as (w&h2&Q&W2&X2&N&Ow). exists l, h1, w, h2.
    split; auto. split; auto. split; auto. intros ->. apply X1 in O. congruence.
  - intros l xs I L F. destruct (c26_list_to_vector h l xs fuel W I F) as (v&h1&P&W1&X1&N&Ov).
    destruct (c26_vector_to_list h1 v xs W1 Ov L) as (l2&h2&Q&W2&X2&I2). exists v, h1, l2, h2.
    split; auto. split; auto. split; auto. apply (is_list_extends h); [exact (extends_trans _ _ _ X1 X2)|exact I].
Qed.
Print Assumptions c26_round_trips.
Example c26_nonvacuous : is_list ex_heap 11 [4; 5; 6]%nat /\ is_dotted_list ex_heap 17 [4; 5]%nat 6%nat.
Proof. split; [eexists; apply ex_list|apply ex_dotted]. Qed.
