From Coq Require Import Lia.
From Verif Require Import Base NumModel HeapModel ListModel ListSpec ListProofs VectorModel.

Lemma set_elem_length es : forall i x, length (set_elem es i x) = length es.
Proof. induction es; intros [|i] x; cbn; auto. Qed.
Lemma set_elem_nth es : forall i x j, (i < length es)%nat ->
  nth_error (set_elem es i x) j = if Nat.eqb j i then Some x else nth_error es j.
Proof.
  induction es as [|e r IH]; intros [|i] x j L; cbn in L; try lia.
  - destruct j; reflexivity.
  - destruct j; [reflexivity|]. cbn. apply IH. lia.
Qed.
Lemma elems_loop_ok h l cs xs : chain h l cs xs -> forall fuel, (length xs <= fuel)%nat ->
  elems_loop fuel l h = Ok (xs, h).
Proof.
  induction 1 as [|c k cs xs K D C IH]; intros fuel L.
  - destruct fuel; reflexivity.
  - destruct fuel; cbn in L; [lia|]. cbn [elems_loop].
    rewrite (bind_ok _ _ _ _ _ (getc_ok _ _ _ K)). rewrite (bind_ok _ _ _ _ _ (IH fuel ltac:(lia))). reflexivity.
Qed.
Lemma elems_loop_dotted h l cs xs d : dchain h l cs xs d -> forall fuel, (S (length xs) <= fuel)%nat ->
  elems_loop fuel l h = Ok (xs ++ [d], h).
Proof.
  induction 1 as [c k K D N|c k cs xs d K D C IH]; intros fuel L; destruct fuel; cbn in L; try lia; cbn [elems_loop].
  - rewrite (bind_ok _ _ _ _ _ (getc_ok _ _ _ K)). rewrite N. destruct fuel; reflexivity.
  - rewrite (bind_ok _ _ _ _ _ (getc_ok _ _ _ K)). rewrite (bind_ok _ _ _ _ _ (IH fuel ltac:(lia))). reflexivity.
Qed.
Lemma vtl_loop_ok es n : (n <= length es)%nat -> forall h r cs ys, wf h -> chain h r cs ys ->
  exists l h' cs', vtl_loop es n r h = Ok (l, h') /\ wf h' /\ extends h h' /\ chain h' l cs' (firstn n es ++ ys) /\
    h_obj h' = h_obj h.
Proof.
  induction n as [|i IH]; intros L h r cs ys W C.
  - exists r, h, cs. split; [reflexivity|]. split; auto. split; [apply extends_refl|]. auto.
  - cbn [vtl_loop]. destruct (nth_error es i) as [x|] eqn:E.
    2:{ apply nth_error_None in E. lia. }
    rewrite (bind_ok _ _ _ _ _ (allocc_eq _ _)).
    destruct (IH ltac:(lia) (hallocc h (mkCell x r false)) (Some (h_next h)) (h_next h :: cs) (x :: ys)) as (l&h'&cs'&P&W'&X&C'&O').
    + now apply wf_hallocc.
    + eapply (chain_cons _ _ (mkCell x r false)); [cbn; apply upd_same|reflexivity|].
      eapply chain_extends; [now apply extends_hallocc|exact C].
    + exists l, h', cs'. split; [exact P|]. split; auto. split; [eapply extends_trans; [now apply extends_hallocc|eauto]|].
      split; [|exact O'].
      replace (firstn (S i) es ++ ys) with (firstn i es ++ x :: ys); auto.
      rewrite <- (firstn_skipn i (firstn (S i) es)), firstn_firstn, Nat.min_l by lia. rewrite <- app_assoc. f_equal.
      assert (Q : skipn i (firstn (S i) es) = [x]).
      { clear -E. revert i E. induction es as [|e r IH]; intros [|i] E; cbn in *; try discriminate.
        - congruence.
        - now apply IH. }
      now rewrite Q.
Qed.
Lemma to_int_small z : 0 <= z < 2 ^ 31 -> to_int z = z.
Proof. intros. unfold to_int. rewrite Z.mod_small by lia. destruct (Z.ltb_spec z (2 ^ 31)); lia. Qed.
Lemma vtl_general h v es : wf h -> h_obj h v = Some (OVec es) -> es <> [] -> to_int (Z.of_nat (length es)) <> - 2 ^ 31 ->
  exists l h', vector_to_list v h = Ok (l, h') /\ wf h' /\ extends h h' /\
    is_list h' l (firstn (Z.to_nat (to_int (Z.of_nat (length es)))) es).
Proof.
  intros W O NE NI. unfold vector_to_list. rewrite (bind_ok _ _ _ _ _ (get_ok _ _ _ O)). cbv iota beta.
  destruct es as [|e r]; [congruence|]. cbv zeta. set (es := e :: r) in *. destruct (Z.eqb_spec (to_int (Z.of_nat (length es))) (- 2 ^ 31)) as [Q|_]; [congruence|].
  set (n := Z.to_nat (to_int _)).
  assert (L : (n <= length es)%nat).
  { unfold n, to_int. pose proof (Z.mod_le (Z.of_nat (length es)) (2 ^ 32) ltac:(lia) ltac:(lia)).
    pose proof (Z.mod_pos_bound (Z.of_nat (length es)) (2 ^ 32) ltac:(lia)).
    destruct (Z.ltb_spec (Z.of_nat (length es) mod 2 ^ 32) (2 ^ 31)); lia. }
  destruct (vtl_loop_ok es n L h None [] [] W (chain_nil _)) as (l&h'&cs&P&W'&X&C&Ob).
  rewrite app_nil_r in C. rewrite (bind_ok _ _ _ _ _ P). destruct l as [c|].
  - rewrite wrap_some. do 2 eexists. split; [reflexivity|]. split; [now apply wf_halloc|].
    split; [eapply extends_trans; [eauto|now apply extends_halloc]|].
    exists cs. right. exists c. split; [cbn; apply upd_same|]. eapply chain_extends; [now apply extends_halloc|auto].
  - cbn. exists nil_a, h'. split; [reflexivity|]. split; auto. split; auto. apply chain_inv_none in C. destruct C as [-> ->].
    exists []. left. split; auto. apply W'.
Qed.
