From Coq Require Import Lia.
From Verif Require Import Base NumModel HeapModel EqModel ListModel ListSpec ListProofs VectorModel VectorProofs StringModel StringSpec.

(** dictionary order is a strict total order *)
Lemma lex_irrefl a : ~ lex_lt a a.
Proof. induction a; intros H; inversion H; subst; [lia|auto]. Qed.
Lemma lex_trans a b : lex_lt a b -> forall c, lex_lt b c -> lex_lt a c.
Proof.
  induction 1 as [y b|x y a b L|x a b L IH]; intros c Q; inversion Q; subst; try (constructor; auto; lia).
Qed.
Lemma lex_total a : forall b, lex_lt a b \/ a = b \/ lex_lt b a.
Proof.
  induction a as [|x a IH]; intros [|y b]; auto; try (left; constructor; fail); try (right; right; constructor; fail).
  destruct (Z.lt_trichotomy x y) as [L|[->|L]]; [left; now constructor| |right; right; now constructor].
  destruct (IH b) as [L|[->|L]]; auto; [left|right; right]; now constructor.
Qed.

(** three-way comparison through a key *)
Fixpoint lcmp (f : Z -> Z) (a b : list Z) : comparison :=
  match a, b with
  | [], [] => Eq
  | [], _ => Lt
  | _, [] => Gt
  | x :: a', y :: b' => match f x ?= f y with Eq => lcmp f a' b' | r => r end
  end.
Lemma lcmp_lt f a : forall b, lcmp f a b = Lt <-> lex_lt (map f a) (map f b).
Proof.
  induction a as [|x a IH]; intros [|y b]; cbn.
  - split; [discriminate|intros H; inversion H].
  - split; [intros _; constructor|auto].
  - split; [discriminate|intros H; inversion H].
  - destruct (Z.compare_spec (f x) (f y)) as [E|L|L].
    + rewrite IH, E. split; [intros; now constructor|]. intros H; inversion H; subst; [lia|auto].
    + split; [intros; now constructor|auto].
    + split; [discriminate|]. intros H; inversion H; subst; lia.
Qed.
Lemma lcmp_gt f a : forall b, lcmp f a b = Gt <-> lex_lt (map f b) (map f a).
Proof.
  induction a as [|x a IH]; intros [|y b]; cbn.
  - split; [discriminate|intros H; inversion H].
  - split; [discriminate|intros H; inversion H].
  - split; [intros _; constructor|auto].
  - destruct (Z.compare_spec (f x) (f y)) as [E|L|L].
    + rewrite IH, E. split; [intros; now constructor|]. intros H; inversion H; subst; [lia|auto].
    + split; [discriminate|]. intros H; inversion H; subst; lia.
    + split; [intros; now constructor|auto].
Qed.
Lemma lcmp_eq f a : forall b, lcmp f a b = Eq <-> map f a = map f b.
Proof.
  induction a as [|x a IH]; intros [|y b]; cbn; try (split; [discriminate|discriminate]).
  - tauto.
  - destruct (Z.compare_spec (f x) (f y)) as [E|L|L].
    + rewrite IH, E. split; [now intros ->|]. intros H; now inversion H.
    + split; [discriminate|]. intros H; inversion H. lia.
    + split; [discriminate|]. intros H; inversion H. lia.
Qed.
Definition len_cmp (c : comparison) (n m : nat) : comparison := match c with Eq => Nat.compare n m | r => r end.
Lemma ci_min_lcmp a : forall b, len_cmp (ci_min a b) (length a) (length b) = lcmp ci a b.
Proof.
  unfold ci_min. induction a as [|x a IH]; intros [|y b]; cbn; auto.
  destruct (ci x ?= ci y); auto. apply IH.
Qed.
Lemma cmp_min_lcmp a : text a -> forall b, len_cmp (cmp_min a b) (length a) (length b) = lcmp (fun x => x) a b.
Proof.
  unfold cmp_min. induction 1 as [|x a T F IH]; intros [|y b]; cbn [length Nat.min strncmp lcmp len_cmp Nat.compare]; auto.
  destruct (Z.compare_spec x y) as [E|L|L]; cbn; auto. destruct (Z.eqb_spec x 0); [lia|]. apply IH.
Qed.
Lemma text_bytes s : text s -> bytes s.
Proof. apply Forall_impl. unfold is_byte. intros; lia. Qed.
Lemma map_idz (l : list Z) : map (fun x => x) l = l.
Proof. apply map_id. Qed.
Ltac by_len :=
  match goal with
  | H : len_cmp ?c ?n ?m = _ |- _ =>
      unfold len_cmp in H; destruct c eqn:?;
      [ destruct (Nat.compare_spec n m) in H; repeat first [destruct (Nat.ltb_spec n m) | destruct (Nat.ltb_spec m n) | destruct (Nat.leb_spec n m) | destruct (Nat.leb_spec m n)] |..]
  end.
Lemma str_lt_spec a b : text a -> str_lt a b = true <-> lex_lt a b.
Proof.
  intros T. rewrite <- (map_idz a), <- (map_idz b) at 2. rewrite <- lcmp_lt. rewrite <- cmp_min_lcmp by auto. unfold str_lt, len_cmp.
  destruct (cmp_min a b); try (split; auto; discriminate).
  destruct (Nat.compare_spec (length a) (length b)), (Nat.ltb_spec (length a) (length b)); split; auto; try discriminate; lia.
Qed.
Lemma str_gt_spec a b : text a -> str_gt a b = true <-> lex_lt b a.
Proof.
  intros T. rewrite <- (map_idz a), <- (map_idz b) at 2. rewrite <- lcmp_gt. rewrite <- cmp_min_lcmp by auto. unfold str_gt, len_cmp.
  destruct (cmp_min a b); try (split; auto; discriminate).
  destruct (Nat.compare_spec (length a) (length b)), (Nat.ltb_spec (length b) (length a)); split; auto; try discriminate; lia.
Qed.
Lemma str_le_spec a b : text a -> str_le a b = true <-> lex_lt a b \/ a = b.
Proof.
  intros T.
  assert (E : str_le a b = negb (str_gt a b)).
  { unfold str_le, str_gt. destruct (cmp_min a b); auto. destruct (Nat.leb_spec (length a) (length b)), (Nat.ltb_spec (length b) (length a)); auto; lia. }
  rewrite E, negb_true_iff. rewrite <- not_true_iff_false, str_gt_spec by auto.
  destruct (lex_total a b) as [L|[->|L]].
  - split; auto. intros _ Q. eapply lex_irrefl, lex_trans; eauto.
  - split; auto. intros _. apply lex_irrefl.
  - split; [tauto|]. intros [Q| ->]; [intros _; eapply lex_irrefl, lex_trans; eauto|apply lex_irrefl].
Qed.
Lemma str_ge_spec a b : text a -> str_ge a b = true <-> lex_lt b a \/ a = b.
Proof.
  intros T.
  assert (E : str_ge a b = negb (str_lt a b)).
  { unfold str_ge, str_lt. destruct (cmp_min a b); auto. destruct (Nat.leb_spec (length b) (length a)), (Nat.ltb_spec (length a) (length b)); auto; lia. }
  rewrite E, negb_true_iff. rewrite <- not_true_iff_false, str_lt_spec by auto.
  destruct (lex_total a b) as [L|[->|L]].
  - split; [tauto|]. intros [Q| ->]; [intros _; eapply lex_irrefl, lex_trans; eauto|apply lex_irrefl].
  - split; auto. intros _. apply lex_irrefl.
  - split; auto. intros _ Q. eapply lex_irrefl, lex_trans; eauto.
Qed.
Lemma str_eq_spec a b : text a -> str_eq_b a b = true <-> a = b.
Proof.
  intros T. pose proof (cmp_min_lcmp a T b) as Q. unfold str_eq_b. destruct (Nat.eqb_spec (length a) (length b)) as [E|N].
  - unfold cmp_min in Q. rewrite E, Nat.min_id in *. unfold len_cmp in Q. rewrite Nat.compare_refl in Q.
    pose proof (lcmp_eq (fun x => x) a b) as LE. rewrite !map_idz in LE. rewrite <- LE, <- Q. destruct (strncmp _ _ _); split; auto; discriminate.
  - split; [discriminate|congruence].
Qed.

(** case-insensitive comparison: dictionary order of the keys *)
Lemma ci_lt_spec a b : ci_lt a b = true <-> lex_lt (map ci a) (map ci b).
Proof.
  rewrite <- lcmp_lt. rewrite <- ci_min_lcmp by auto. unfold ci_lt, len_cmp.
  destruct (ci_min a b); try (split; auto; discriminate).
  destruct (Nat.compare_spec (length a) (length b)), (Nat.ltb_spec (length a) (length b)); split; auto; try discriminate; lia.
Qed.
Lemma ci_gt_spec a b : ci_gt a b = true <-> lex_lt (map ci b) (map ci a).
Proof.
  rewrite <- lcmp_gt. rewrite <- ci_min_lcmp by auto. unfold ci_gt, len_cmp.
  destruct (ci_min a b); try (split; auto; discriminate).
  destruct (Nat.compare_spec (length a) (length b)), (Nat.ltb_spec (length b) (length a)); split; auto; try discriminate; lia.
Qed.
Lemma ci_le_not_gt a b : ci_le a b = negb (ci_gt a b).
Proof.
  unfold ci_le, ci_gt. destruct (ci_min a b); auto. destruct (Nat.leb_spec (length a) (length b)), (Nat.ltb_spec (length b) (length a)); auto; lia.
Qed.
Lemma ci_ge_not_lt a b : ci_ge a b = negb (ci_lt a b).
Proof.
  unfold ci_ge, ci_lt. destruct (ci_min a b); auto. destruct (Nat.leb_spec (length b) (length a)), (Nat.ltb_spec (length a) (length b)); auto; lia.
Qed.
Lemma ci_eq_spec a b : ci_eq a b = true <-> map ci a = map ci b.
Proof.
  pose proof (ci_min_lcmp a b) as Q. unfold ci_eq. destruct (Nat.eqb_spec (length a) (length b)) as [E|N].
  - unfold ci_min in Q. rewrite E, Nat.min_id in *. unfold len_cmp in Q. rewrite Nat.compare_refl in Q.
    rewrite <- lcmp_eq. rewrite <- Q. destruct (ci_loop _ _ _); split; auto; discriminate.
  - split; [discriminate|]. intros H. apply (f_equal (@length Z)) in H. rewrite !map_length in H. congruence.
Qed.
Lemma schar_inj x y : is_byte x -> is_byte y -> schar x = schar y -> x = y.
Proof. unfold is_byte, schar. intros. destruct (Z.ltb_spec x 128), (Z.ltb_spec y 128); lia. Qed.
Lemma toupper_byte x : is_byte x -> is_byte (toupper x).
Proof. unfold is_byte, toupper. intros. destruct (Z.leb_spec 97 x), (Z.leb_spec x 122); cbn [andb]; lia. Qed.
Lemma map_inj_on (f : Z -> Z) (P : Z -> Prop) : (forall x y, P x -> P y -> f x = f y -> x = y) ->
  forall a b, Forall P a -> Forall P b -> map f a = map f b -> a = b.
Proof.
  intros I a. induction a as [|x a IH]; intros [|y b] A B E; cbn in E; try discriminate; auto.
  inversion A; inversion B; subst. inversion E. f_equal; auto.
Qed.
Lemma Forall_map_iff {A B} (P : B -> Prop) (f : A -> B) l : Forall (fun x => P (f x)) l -> Forall P (map f l).
Proof. induction 1; cbn; constructor; auto. Qed.
Lemma ci_map a : map ci a = map schar (map toupper a).
Proof. unfold ci. now rewrite map_map. Qed.

(** heap facts *)
Lemma get_str_ok a h s : h_obj h a = Some (OStr s) -> get_str a h = Ok (s, h).
Proof. intros O. unfold get_str. now rewrite (bind_ok _ _ _ _ _ (get_ok _ _ _ O)). Qed.
Lemma get_int_ok a h z : h_obj h a = Some (ONum z) -> get_int a h = Ok (z, h).
Proof. intros O. unfold get_int. now rewrite (bind_ok _ _ _ _ _ (get_ok _ _ _ O)). Qed.
Lemma get_chr_ok a h c : h_obj h a = Some (OChar c) -> get_chr a h = Ok (c, h).
Proof. intros O. unfold get_chr. now rewrite (bind_ok _ _ _ _ _ (get_ok _ _ _ O)). Qed.
Lemma set_byte_length es : forall i x, length (set_byte es i x) = length es.
Proof. induction es; intros [|i] x; cbn; auto. Qed.
Lemma set_byte_nth es : forall i x j, (i < length es)%nat ->
  nth_error (set_byte es i x) j = if Nat.eqb j i then Some x else nth_error es j.
Proof.
  induction es as [|e r IH]; intros [|i] x j L; cbn in L; try lia.
  - destruct j; reflexivity.
  - destruct j; [reflexivity|]. cbn. apply IH. lia.
Qed.
Lemma alloc_str h s : wf h -> exists v h', alloc (OStr s) h = Ok (v, h') /\ wf h' /\ extends h h' /\ h_obj h v = None /\ h_obj h' v = Some (OStr s).
Proof.
  intros W. rewrite alloc_eq. do 2 eexists. split; [reflexivity|]. split; [now apply wf_halloc|].
  split; [now apply extends_halloc|]. split; [apply W; lia|cbn; apply upd_same].
Qed.
Lemma append_total_ok h args ss : Forall2 (fun a s => h_obj h a = Some (OStr s)) args ss ->
  forall t, 0 <= t -> t + Z.of_nat (length (concat ss)) <= int_max ->
  append_total args t h = Ok (t + Z.of_nat (length (concat ss)), h).
Proof.
  induction 1 as [|a s args ss O F IH]; intros t P L; cbn [append_total concat length].
  - unfold ret. do 2 f_equal. lia.
  - rewrite (bind_ok _ _ _ _ _ (get_str_ok _ _ _ O)). cbn [concat] in L. rewrite app_length in *.
    cbv zeta. destruct (Z.ltb_spec int_max (t + Z.of_nat (length s))); [lia|].
    rewrite IH by lia. do 2 f_equal. lia.
Qed.
Lemma append_copy_ok h args ss : Forall2 (fun a s => h_obj h a = Some (OStr s)) args ss ->
  forall out total, total = Z.of_nat (length out + length (concat ss)) ->
  append_copy args total out h = Ok (out ++ concat ss, h).
Proof.
  induction 1 as [|a s args ss O F IH]; intros out total E; cbn [append_copy concat].
  - now rewrite app_nil_r.
  - cbn [concat] in E. rewrite app_length in E. destruct (Z.ltb_spec (Z.of_nat (length out)) total).
    + rewrite (bind_ok _ _ _ _ _ (get_str_ok _ _ _ O)). rewrite IH.
      * now rewrite app_assoc.
      * rewrite app_length. lia.
    + assert (Q : s ++ concat ss = []) by (apply length_zero_iff_nil; rewrite app_length; lia).
      rewrite Q, app_nil_r. reflexivity.
Qed.
Lemma chars_of_ok h args cs : Forall2 (fun a c => h_obj h a = Some (OChar c)) args cs ->
  chars_of args h = Ok (map uchar cs, h).
Proof.
  induction 1 as [|a c args cs O F IH]; cbn [chars_of map]; [reflexivity|].
  rewrite (bind_ok _ _ _ _ _ (get_chr_ok _ _ _ O)). rewrite (bind_ok _ _ _ _ _ IH). reflexivity.
Qed.
Lemma uchar_schar b : is_byte b -> uchar (schar b) = b.
Proof.
  unfold is_byte, uchar, schar. intros. destruct (Z.ltb_spec b 128).
  - apply Z.mod_small. lia.
  - replace (b - 256) with (b + (-1) * 256) by lia. rewrite Z_mod_plus_full. apply Z.mod_small. lia.
Qed.
Lemma schar_uchar c : -128 <= c <= 127 -> schar (uchar c) = c.
Proof.
  unfold uchar, schar. intros. destruct (Z.ltb_spec (c mod 256) 128).
  - destruct (Z.le_gt_cases 0 c); [now rewrite Z.mod_small in * by lia|].
    replace c with (c + 256 + (-1) * 256) in H0 by lia. rewrite Z_mod_plus_full, Z.mod_small in H0 by lia. lia.
  - destruct (Z.le_gt_cases 0 c); [rewrite Z.mod_small in * by lia; lia|].
    replace c with (c + 256 + (-1) * 256) at 1 by lia. rewrite Z_mod_plus_full, Z.mod_small by lia. lia.
Qed.
Lemma uchar_byte c : is_byte (uchar c).
Proof. unfold is_byte, uchar. pose proof (Z.mod_pos_bound c 256 ltac:(lia)). lia. Qed.
Lemma Forall2_ext_obj h h' (f : Z -> obj) l m : extends h h' ->
  Forall2 (fun a c => h_obj h a = Some (f c)) l m -> Forall2 (fun a c => h_obj h' a = Some (f c)) l m.
Proof. intros E. induction 1; constructor; auto. now apply E. Qed.
Lemma stl_loop_ok bs : forall h r cs ys zs, wf h -> chain h r cs ys -> Forall2 (fun a c => h_obj h a = Some (OChar c)) ys zs ->
  exists l h' cs' xs, stl_loop bs r h = Ok (l, h') /\ wf h' /\ extends h h' /\ chain h' l cs' xs /\
    Forall2 (fun a c => h_obj h' a = Some (OChar c)) xs (map schar (rev bs) ++ zs).
Proof.
  induction bs as [|b bs IH]; intros h r cs ys zs W C F.
  - exists r, h, cs, ys. split; [reflexivity|]. split; auto. split; [apply extends_refl|]. auto.
  - cbn [stl_loop]. rewrite (bind_ok _ _ _ _ _ (alloc_eq _ _)). set (h1 := halloc h _).
    rewrite (bind_ok _ _ _ _ _ (allocc_eq _ _)). set (h2 := hallocc h1 _).
    assert (W1 : wf h1) by now apply wf_halloc. assert (W2 : wf h2) by now apply wf_hallocc.
    assert (E1 : extends h h1) by now apply extends_halloc. assert (E2 : extends h1 h2) by now apply extends_hallocc.
    assert (E : extends h h2) by (eapply extends_trans; eauto).
    destruct (IH h2 (Some (h_next h1)) (h_next h1 :: cs) (h_next h :: ys) (schar b :: zs)) as (l&h'&cs'&xs&P&W'&X&C'&F').
    + auto.
    + eapply (chain_cons _ _ (mkCell (h_next h) r false)); [cbn; apply upd_same|reflexivity|].
      eapply chain_extends; eauto.
    + constructor; [cbn; apply upd_same|]. apply (Forall2_ext_obj h h2 OChar); auto.
    + exists l, h', cs', xs. split; [exact P|]. split; auto. split; [eapply extends_trans; eauto|]. split; auto.
      cbn [rev]. rewrite map_app, <- app_assoc. exact F'.
Qed.
