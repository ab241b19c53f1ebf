(** C27-C30, C69: statements about strings and characters.  Vocabulary:
    StringSpec.  An object [OStr s] is the string with bytes [s]; [OChar c] is
    the character held in the (signed) C char [c], i.e. with code [c mod 256]. *)
From Coq Require Import Lia.
From Verif Require Import Base NumModel HeapModel EqModel ListModel ListSpec ListProofs ListWitness VectorModel VectorProofs StringModel StringSpec StringProofs.

(** C27 *)
Theorem c27_length : forall h s bs, wf h -> h_obj h s = Some (OStr bs) ->
  exists n h', string_length s h = Ok (n, h') /\ h_obj h' n = Some (ONum (Z.of_nat (length bs))) /\ extends h h'.
Proof.
  intros h s bs W O. unfold string_length. rewrite (bind_ok _ _ _ _ _ (get_str_ok _ _ _ O)). rewrite alloc_eq.
  do 2 eexists. split; [reflexivity|]. split; [cbn; apply upd_same|now apply extends_halloc].
Qed.
Print Assumptions c27_length.
Theorem c27_ref : forall h s k bs z, wf h -> h_obj h s = Some (OStr bs) -> h_obj h k = Some (ONum z) ->
  (0 <= z < Z.of_nat (length bs) -> exists b r h', nth_error bs (Z.to_nat z) = Some b /\
      string_ref s k h = Ok (r, h') /\ extends h h' /\ exists c, h_obj h' r = Some (OChar c) /\ (is_byte b -> c mod 256 = b)) /\
  (~ 0 <= z < Z.of_nat (length bs) -> string_ref s k h = Err).
Proof.
  intros h s k bs z W O K. unfold string_ref. rewrite (bind_ok _ _ _ _ _ (get_str_ok _ _ _ O)), (bind_ok _ _ _ _ _ (get_int_ok _ _ _ K)).
  destruct (Z.ltb_spec z 0), (Z.leb_spec (Z.of_nat (length bs)) z); cbn [orb]; split; intros L; try lia; try reflexivity.
  destruct (nth_error bs (Z.to_nat z)) as [b|] eqn:E; [|apply nth_error_None in E; lia].
  exists b. rewrite alloc_eq. do 2 eexists. split; auto. split; [reflexivity|]. split; [now apply extends_halloc|].
  eexists. split; [cbn; apply upd_same|]. apply uchar_schar.
Qed.
Print Assumptions c27_ref.
Theorem c27_set_in_range : forall h s k c bs z ch, h_obj h s = Some (OStr bs) -> h_obj h k = Some (ONum z) ->
  h_obj h c = Some (OChar ch) -> 0 <= z < Z.of_nat (length bs) ->
  exists h' bs', string_set s k c h = Ok (none_a, h') /\ h_obj h' s = Some (OStr bs') /\
    length bs' = length bs /\ nth_error bs' (Z.to_nat z) = Some (ch mod 256) /\
    (forall j, j <> Z.to_nat z -> nth_error bs' j = nth_error bs j) /\
    (forall a, a <> s -> h_obj h' a = h_obj h a) /\ h_cell h' = h_cell h.
Proof.
  intros h s k c bs z ch O K C L. unfold string_set.
  rewrite (bind_ok _ _ _ _ _ (get_str_ok _ _ _ O)), (bind_ok _ _ _ _ _ (get_int_ok _ _ _ K)), (bind_ok _ _ _ _ _ (get_chr_ok _ _ _ C)).
  destruct (Z.ltb_spec z 0), (Z.leb_spec (Z.of_nat (length bs)) z); cbn [orb]; try lia.
  destruct (Nat.ltb_spec (Z.to_nat z) (length bs)); [|lia].
  erewrite bind_ok; [|unfold seto; rewrite O; reflexivity]. do 2 eexists. split; [reflexivity|]. cbn [h_obj h_cell].
  split; [apply upd_same|]. split; [apply set_byte_length|].
  split; [rewrite set_byte_nth, Nat.eqb_refl by auto; reflexivity|]. split.
  - intros j N. rewrite set_byte_nth by auto. destruct (Nat.eqb_spec j (Z.to_nat z)); congruence.
  - split; auto. intros a N. now apply upd_other.
Qed.
Print Assumptions c27_set_in_range.
Theorem c27_set_out_of_range : forall h s k c bs z ch, h_obj h s = Some (OStr bs) -> h_obj h k = Some (ONum z) ->
  h_obj h c = Some (OChar ch) -> ~ 0 <= z < Z.of_nat (length bs) -> string_set s k c h = Err.
Proof.
  intros h s k c bs z ch O K C L. unfold string_set.
  rewrite (bind_ok _ _ _ _ _ (get_str_ok _ _ _ O)), (bind_ok _ _ _ _ _ (get_int_ok _ _ _ K)), (bind_ok _ _ _ _ _ (get_chr_ok _ _ _ C)).
  destruct (Z.ltb_spec z 0), (Z.leb_spec (Z.of_nat (length bs)) z); cbn [orb]; try lia; reflexivity.
Qed.
Print Assumptions c27_set_out_of_range.
Theorem c27_substring : forall h s st en bs i j, wf h -> h_obj h s = Some (OStr bs) ->
  h_obj h st = Some (ONum i) -> h_obj h en = Some (ONum j) ->
  (0 <= i <= j /\ j <= Z.of_nat (length bs) ->
     exists r h' out, substring s st en h = Ok (r, h') /\ extends h h' /\ h_obj h r = None /\ h_obj h' r = Some (OStr out) /\
       Z.of_nat (length out) = j - i /\
       forall n, Z.of_nat n < j - i -> nth_error out n = nth_error bs (Z.to_nat i + n)) /\
  (~ (0 <= i <= j /\ j <= Z.of_nat (length bs)) -> substring s st en h = Err).
Proof.
  intros h s st en bs i j W O I J. unfold substring.
  rewrite (bind_ok _ _ _ _ _ (get_str_ok _ _ _ O)), (bind_ok _ _ _ _ _ (get_int_ok _ _ _ I)), (bind_ok _ _ _ _ _ (get_int_ok _ _ _ J)).
  destruct (Z.ltb_spec i 0), (Z.ltb_spec (Z.of_nat (length bs)) i); cbn [orb]; try (split; [lia|reflexivity]).
  destruct (Z.ltb_spec j i), (Z.ltb_spec (Z.of_nat (length bs)) j); cbn [orb]; try (split; [lia|reflexivity]).
  split; [|lia]. intros _. destruct (alloc_str h (firstn (Z.to_nat (j - i)) (skipn (Z.to_nat i) bs)) W) as (r&h'&P&W'&X&N&R).
  exists r, h', (firstn (Z.to_nat (j - i)) (skipn (Z.to_nat i) bs)). split; auto. split; auto. split; auto. split; auto. split.
  - rewrite firstn_length, skipn_length. lia.
  - intros n L. rewrite <- (firstn_skipn (Z.to_nat i) bs) at 2. rewrite nth_error_app2 by (rewrite firstn_length; lia).
    rewrite firstn_length, Nat.min_l by lia. replace (Z.to_nat i + n - Z.to_nat i)%nat with n by lia.
    rewrite <- (firstn_skipn (Z.to_nat (j - i)) (skipn (Z.to_nat i) bs)) at 2.
    rewrite nth_error_app1; auto. rewrite firstn_length, skipn_length. lia.
Qed.
Print Assumptions c27_substring.
Theorem c27_append : forall h args ss, wf h -> Forall2 (fun a s => h_obj h a = Some (OStr s)) args ss ->
  Z.of_nat (length (concat ss)) < 2 ^ 31 ->
  exists r h', string_append args h = Ok (r, h') /\ extends h h' /\ h_obj h r = None /\ h_obj h' r = Some (OStr (concat ss)).
Proof.
  intros h args ss W F L. unfold string_append. destruct F as [|a s args ss O F].
  - destruct (alloc_str h [] W) as (r&h'&P&W'&X&N&R). eauto 6.
  - assert (F' : Forall2 (fun a s => h_obj h a = Some (OStr s)) (a :: args) (s :: ss)) by (constructor; auto).
    rewrite (bind_ok _ _ _ _ _ (append_total_ok _ _ _ F' 0 ltac:(lia) ltac:(unfold int_max; lia))).
    rewrite (bind_ok _ _ _ _ _ (append_copy_ok _ _ _ F' [] _ ltac:(reflexivity))).
    destruct (alloc_str h ([] ++ concat (s :: ss)) W) as (r&h'&P&W'&X&N&R). eauto 6.
Qed.
Print Assumptions c27_append.
Theorem c27_make_string : forall h len z c ch, wf h -> h_obj h len = Some (ONum z) -> h_obj h c = Some (OChar ch) ->
  (0 <= z < 2 ^ 31 -> exists r h' bs, make_string len (Some c) h = Ok (r, h') /\ extends h h' /\ h_obj h' r = Some (OStr bs) /\
     Z.of_nat (length bs) = z /\ forall b, In b bs -> b = ch mod 256) /\
  (z < 0 -> make_string len (Some c) h = Err).
Proof.
  intros h len z c ch W L C. unfold make_string. rewrite (bind_ok _ _ _ _ _ (get_int_ok _ _ _ L)).
  destruct (Z.ltb_spec z 0); split; intros R; try lia; auto.
  rewrite (bind_ok _ _ _ _ _ (get_chr_ok _ _ _ C)). destruct (Z.ltb_spec int_max z); [unfold int_max in *; lia|].
  destruct (alloc_str h (repeat (uchar ch) (Z.to_nat z)) W) as (r&h'&P&W'&X&N&O). do 3 eexists. split; [exact P|].
  split; auto. split; [exact O|]. rewrite repeat_length. split; [lia|]. intros b I. eapply repeat_spec; eauto.
Qed.
Print Assumptions c27_make_string.
(** lengths are C ints: results of 2^31 bytes or more are undefined behaviour,
    not an error *)
Theorem c126_huge_results_refuted : forall h,
  (forall args ss, Forall2 (fun a s => h_obj h a = Some (OStr s)) args ss ->
     2 ^ 31 <= Z.of_nat (length (concat ss)) -> string_append args h = UB) /\
  (forall len z, h_obj h len = Some (ONum z) -> 2 ^ 31 <= z -> make_string len None h = UB).
Proof.
  intros h. split.
  - intros args ss F L. destruct F as [|a s args ss O F]; [cbn [concat length] in L; lia|].
    unfold string_append.
    assert (Q : forall args ss, Forall2 (fun a s => h_obj h a = Some (OStr s)) args ss ->
              forall t, 0 <= t <= int_max -> int_max < t + Z.of_nat (length (concat ss)) -> append_total args t h = UB).
    { clear. induction 1 as [|a s args ss O F IH]; intros t R L; cbn [append_total concat] in *; [cbn [length] in L; lia|].
      rewrite (bind_ok _ _ _ _ _ (get_str_ok _ _ _ O)). cbv zeta. rewrite app_length in L.
      destruct (Z.ltb_spec int_max (t + Z.of_nat (length s))); [reflexivity|]. apply IH; lia. }
    unfold mbind at 1. rewrite (Q (a :: args) (s :: ss)); auto; try (constructor; auto); unfold int_max; lia.
  - intros len z O L. unfold make_string. rewrite (bind_ok _ _ _ _ _ (get_int_ok _ _ _ O)).
    destruct (Z.ltb_spec z 0); [lia|]. erewrite bind_ok; [|reflexivity].
    destruct (Z.ltb_spec int_max z); [reflexivity|unfold int_max in *; lia].
Qed.
Print Assumptions c126_huge_results_refuted.
Theorem c27_type_errors : forall h s k o, h_obj h s = Some o -> (forall bs, o <> OStr bs) ->
  string_length s h = Err /\ string_ref s k h = Err /\ (forall c, string_set s k c h = Err) /\ (forall e, substring s k e h = Err) /\
  (forall args, string_append (s :: args) h = Err).
Proof.
  intros h s k o O N. assert (G : get_str s h = Err).
  { unfold get_str. rewrite (bind_ok _ _ _ _ _ (get_ok _ _ _ O)). destruct o; auto. exfalso. eapply N; eauto. }
  assert (B : forall T (f : _ -> M T), mbind (get_str s) f h = Err) by (intros; unfold mbind; now rewrite G).
  split; [apply B|]. split; [apply B|]. split; [intros; apply B|]. split; [intros; apply B|].
  intros. unfold string_append. cbn [append_total].
  set (m := mbind (get_str s) _). assert (E : m h = Err) by apply B. unfold mbind. now rewrite E.
Qed.
Print Assumptions c27_type_errors.
(** heap with "abc" at 4, the index 1 at 5, #\z at 6, "de" at 7, index 3 at 8 *)
Definition str_heap : heap :=
  halloc (halloc (halloc (halloc (halloc empty_heap (OStr [97;98;99])) (ONum 1)) (OChar 122)) (OStr [100;101])) (ONum 3).
Lemma wf_str_heap : wf str_heap.
Proof. unfold str_heap. do 5 apply wf_halloc. apply wf_empty. Qed.
Definition str_at (r : res (addr * heap)) : option obj := match r with Ok (a, h) => h_obj h a | _ => None end.
Example c27_nonvacuous :
  str_at (string_ref 4%nat 5%nat str_heap) = Some (OChar 98) /\
  str_at (substring 4%nat 5%nat 8%nat str_heap) = Some (OStr [98;99]) /\
  str_at (string_append [4;7;4]%nat str_heap) = Some (OStr [97;98;99;100;101;97;98;99]) /\
  string_ref 4%nat 8%nat str_heap = Err /\
  match string_set 4%nat 5%nat 6%nat str_heap with Ok (_, h) => h_obj h 4%nat | _ => None end = Some (OStr [97;122;99]).
Proof. repeat split. Qed.

(** C28: on strings without NUL the five comparisons are the dictionary order *)
Theorem c28_comparisons_decide_dictionary_order : forall h a b x y,
  h_obj h a = Some (OStr x) -> h_obj h b = Some (OStr y) -> text x -> text y ->
  exists lt gt le ge eq,
    str_pred str_lt a b h = Ok (bool_a lt, h) /\ (lt = true <-> lex_lt x y) /\
    str_pred str_gt a b h = Ok (bool_a gt, h) /\ (gt = true <-> lex_lt y x) /\
    str_pred str_le a b h = Ok (bool_a le, h) /\ (le = true <-> lex_lt x y \/ x = y) /\
    str_pred str_ge a b h = Ok (bool_a ge, h) /\ (ge = true <-> lex_lt y x \/ x = y) /\
    str_pred str_eq_b a b h = Ok (bool_a eq, h) /\ (eq = true <-> x = y).
Proof.
  intros h a b x y A B X Y.
  assert (P : forall f, str_pred f a b h = Ok (bool_a (f x y), h)).
  { intros f. unfold str_pred. now rewrite (bind_ok _ _ _ _ _ (get_str_ok _ _ _ A)), (bind_ok _ _ _ _ _ (get_str_ok _ _ _ B)). }
  do 5 eexists. split; [apply P|]. split; [now apply str_lt_spec|]. split; [apply P|]. split; [now apply str_gt_spec|].
  split; [apply P|]. split; [now apply str_le_spec|]. split; [apply P|]. split; [now apply str_ge_spec|]. split; [apply P|now apply str_eq_spec].
Qed.
Print Assumptions c28_comparisons_decide_dictionary_order.
Theorem c28_dictionary_order_is_total : (forall a, ~ lex_lt a a) /\ (forall a b c, lex_lt a b -> lex_lt b c -> lex_lt a c) /\
  (forall a b, lex_lt a b \/ a = b \/ lex_lt b a).
Proof. split; [exact lex_irrefl|]. split; [intros a b c H; now apply lex_trans|intros; apply lex_total]. Qed.
Print Assumptions c28_dictionary_order_is_total.
(** why NUL is excluded: everything after a common NUL is ignored *)
Theorem c28_nul_hides_the_rest : forall p x y, text p -> length x = length y ->
  str_eq_b (p ++ 0 :: x) (p ++ 0 :: y) = true /\ str_lt (p ++ 0 :: x) (p ++ 0 :: y) = false.
Proof.
  intros p x y T L.
  assert (Q : forall n, strncmp n (p ++ 0 :: x) (p ++ 0 :: y) = Eq).
  { induction T as [|c p C T IH]; intros [|n]; cbn; auto. rewrite Z.compare_refl. destruct (Z.eqb_spec c 0); auto. }
  assert (E : length (p ++ 0 :: x) = length (p ++ 0 :: y)) by (rewrite !app_length; cbn; lia).
  split.
  - unfold str_eq_b. rewrite E, Nat.eqb_refl. now rewrite Q.
  - unfold str_lt, cmp_min. rewrite Q, E. apply Nat.ltb_irrefl.
Qed.
Print Assumptions c28_nul_hides_the_rest.
Example c28_nonvacuous : text [97;98] /\ text [97;200] /\ lex_lt [97;98] [97;200] /\ str_lt [97;98] [97;200] = true.
Proof.
  split; [repeat (apply Forall_cons; [lia|]); apply Forall_nil|]. split; [repeat (apply Forall_cons; [lia|]); apply Forall_nil|].
  split; [apply lex_tail, lex_head; lia|reflexivity].
Qed.

(** C29 *)
Theorem c29_ci_equal : forall x y, bytes x -> bytes y -> (ci_eq x y = true <-> map toupper x = map toupper y).
Proof.
  intros x y X Y. rewrite ci_eq_spec, !ci_map. split; [|congruence].
  apply (map_inj_on schar is_byte schar_inj); apply Forall_map_iff; eapply Forall_impl; eauto; apply toupper_byte.
Qed.
Print Assumptions c29_ci_equal.
Theorem c127_ci_order_ascii : forall x y, ascii x -> ascii y ->
  ci_lt x y = str_lt (map toupper x) (map toupper y) /\ ci_gt x y = str_gt (map toupper x) (map toupper y) /\
  ci_le x y = str_le (map toupper x) (map toupper y) /\ ci_ge x y = str_ge (map toupper x) (map toupper y) /\
  ci_eq x y = str_eq_b (map toupper x) (map toupper y).
Proof.
  intros x y X Y.
  assert (U : forall z, 1 <= z <= 127 -> 1 <= toupper z <= 127).
  { intros z R. unfold toupper. destruct (Z.leb_spec 97 z), (Z.leb_spec z 122); cbn [andb]; lia. }
  assert (T : forall l, ascii l -> text (map toupper l)).
  { intros l A. apply Forall_map_iff. eapply Forall_impl; [|exact A]. cbn. intros z R. apply U in R. lia. }
  assert (I : forall l, ascii l -> map ci l = map toupper l).
  { intros l A. apply map_ext_in. intros z In. unfold ascii in A. rewrite Forall_forall in A. specialize (U z (A z In)).
    unfold ci, schar. destruct (Z.ltb_spec (toupper z) 128); lia. }
  assert (EQ : forall p q : bool, (p = true <-> q = true) -> p = q) by (intros [] []; intros [A B]; auto; symmetry; auto).
  assert (Lt : ci_lt x y = str_lt (map toupper x) (map toupper y)) by (apply EQ; now rewrite ci_lt_spec, str_lt_spec, !I by auto).
  assert (Gt : ci_gt x y = str_gt (map toupper x) (map toupper y)) by (apply EQ; now rewrite ci_gt_spec, str_gt_spec, !I by auto).
  split; auto. split; auto. split; [|split].
  - rewrite ci_le_not_gt, Gt. unfold str_le, str_gt. destruct (cmp_min _ _); auto.
    destruct (Nat.leb_spec (length (map toupper x)) (length (map toupper y))), (Nat.ltb_spec (length (map toupper y)) (length (map toupper x))); auto; lia.
  - rewrite ci_ge_not_lt, Lt. unfold str_ge, str_lt. destruct (cmp_min _ _); auto.
    destruct (Nat.leb_spec (length (map toupper y)) (length (map toupper x))), (Nat.ltb_spec (length (map toupper x)) (length (map toupper y))); auto; lia.
  - apply EQ. now rewrite ci_eq_spec, str_eq_spec, !I by auto.
Qed.
Print Assumptions c127_ci_order_ascii.
(** every byte above 127 sorts before every ASCII character, the opposite of
    the case-sensitive comparison of the upper-cased strings and of char-ci<? *)
Theorem c171_ci_order_refuted : forall p b c x y, bytes p -> 128 <= b <= 255 -> 1 <= c <= 127 ->
  ci_lt (p ++ b :: x) (p ++ c :: y) = true /\
  (text p -> str_lt (map toupper (p ++ b :: x)) (map toupper (p ++ c :: y)) = false) /\
  chr_ci_lt (schar b) (schar c) = false.
Proof.
  intros p b c x y B Hb Hc.
  assert (Ub : toupper b = b) by (unfold toupper; destruct (Z.leb_spec 97 b), (Z.leb_spec b 122); cbn [andb]; lia).
  assert (Uc : 1 <= toupper c <= 127) by (unfold toupper; destruct (Z.leb_spec 97 c), (Z.leb_spec c 122); cbn [andb]; lia).
  split; [|split].
  - apply ci_lt_spec. rewrite !map_app. cbn [map]. clear B. induction p; cbn [map app]; [|now constructor].
    constructor. unfold ci. rewrite Ub. unfold schar. destruct (Z.ltb_spec b 128), (Z.ltb_spec (toupper c) 128); lia.
  - intros T. apply not_true_is_false. intros Q.
    assert (G : str_gt (map toupper (p ++ b :: x)) (map toupper (p ++ c :: y)) = true).
    { rewrite !map_app. cbn [map]. rewrite Ub. clear -T Uc Hb. unfold str_gt.
      assert (E : cmp_min (map toupper p ++ b :: map toupper x) (map toupper p ++ toupper c :: map toupper y) = Gt); [|now rewrite E].
      unfold cmp_min. induction T as [|q p Q T IH]; cbn [map app length Nat.min strncmp].
      - destruct (Z.compare_spec b (toupper c)); auto; lia.
      - rewrite Z.compare_refl. destruct (Z.eqb_spec (toupper q) 0) as [E|_]; auto.
        exfalso. unfold toupper in E. destruct (Z.leb_spec 97 q), (Z.leb_spec q 122); cbn [andb] in E; lia. }
    unfold str_lt, str_gt in *. destruct (cmp_min _ _); try discriminate.
    apply Nat.ltb_lt in G. apply Nat.ltb_lt in Q. lia.
  - unfold chr_ci_lt. rewrite !uchar_schar by (unfold is_byte; lia). rewrite Ub. apply Z.ltb_ge. lia.
Qed.
Print Assumptions c171_ci_order_refuted.
(** still, on all strings, the ci comparisons are mutually consistent and decide
    a total preorder: the dictionary order of the keys *)
Theorem c29_ci_consistent : forall x y,
  (ci_lt x y = true <-> lex_lt (map ci x) (map ci y)) /\ (ci_gt x y = true <-> lex_lt (map ci y) (map ci x)) /\
  ci_le x y = negb (ci_gt x y) /\ ci_ge x y = negb (ci_lt x y) /\ (ci_eq x y = true <-> map ci x = map ci y).
Proof.
  intros x y. split; [apply ci_lt_spec|]. split; [apply ci_gt_spec|]. split; [apply ci_le_not_gt|]. split; [apply ci_ge_not_lt|apply ci_eq_spec].
Qed.
Print Assumptions c29_ci_consistent.
Example c29_nonvacuous : ci_eq [97;66] [65;98] = true /\ ci_lt [200] [97] = true /\ str_lt (map toupper [200]) (map toupper [97]) = false.
Proof. repeat split. Qed.

(** C30 *)
(** [is_char_list h l s]: a proper list of the characters of [s] *)
Definition is_char_list (h : heap) (l : addr) (s : list Z) : Prop :=
  exists xs, is_list h l xs /\ Forall2 (fun a b => exists c, h_obj h a = Some (OChar c) /\ c mod 256 = b) xs s.
Theorem c30_string_to_list : forall h s bs, wf h -> h_obj h s = Some (OStr bs) -> bytes bs ->
  exists l h', string_to_list s h = Ok (l, h') /\ wf h' /\ extends h h' /\ is_char_list h' l bs.
Proof.
  intros h s bs W O B. unfold string_to_list. rewrite (bind_ok _ _ _ _ _ (get_str_ok _ _ _ O)).
  destruct (stl_loop_ok (rev bs) h None [] [] [] W (chain_nil _) (Forall2_nil _)) as (l&h'&cs&xs&P&W'&X&C&F).
  rewrite app_nil_r, rev_involutive in F. rewrite (bind_ok _ _ _ _ _ P).
  assert (G : forall h2, extends h' h2 -> Forall2 (fun a b => exists c, h_obj h2 a = Some (OChar c) /\ c mod 256 = b) xs bs).
  { intros h2 E. clear -F E B. revert xs F. induction B as [|b bs Hb B IH]; intros xs F; inversion F; subst; constructor; auto.
    eexists. split; [apply E; eauto|]. now apply uchar_schar. }
  destruct l as [c|].
  - rewrite wrap_some. do 2 eexists. split; [reflexivity|]. split; [now apply wf_halloc|].
    split; [eapply extends_trans; [eauto|now apply extends_halloc]|].
    exists xs. split; [|apply G; now apply extends_halloc].
    exists cs. right. exists c. split; [cbn; apply upd_same|]. eapply chain_extends; [now apply extends_halloc|auto].
  - exists nil_a, h'. split; [reflexivity|]. split; auto. split; auto. exists xs. split; [|apply G; apply extends_refl].
    apply chain_inv_none in C. destruct C as [-> ->]. exists []. left. split; auto. apply W'.
Qed.
Print Assumptions c30_string_to_list.
Theorem c30_list_to_string : forall h l s fuel, wf h -> is_char_list h l s -> (length s <= fuel)%nat -> Z.of_nat (length s) < 2 ^ 31 ->
  exists r h', list_to_string fuel l h = Ok (r, h') /\ wf h' /\ extends h h' /\ h_obj h r = None /\ h_obj h' r = Some (OStr s).
Proof.
  intros h l s fuel W (xs&I&F) L R.
  assert (Fc : exists cs, Forall2 (fun a c => h_obj h a = Some (OChar c)) xs cs /\ map uchar cs = s).
  { clear -F. induction F as [|a b xs s (c&O&E) F (cs&G&M)]; [exists []; split; constructor|]. exists (c :: cs). split; [constructor; auto|].
    cbn. now rewrite M, <- E. }
  destruct Fc as (cs&G&M).
  assert (Len : length xs = length s) by (clear -F; induction F; cbn; auto).
  assert (SC : string_of_chars xs h = alloc (OStr s) h).
  { unfold string_of_chars. rewrite (bind_ok _ _ _ _ _ (chars_of_ok _ _ _ G)), M. destruct (Z.ltb_spec int_max (Z.of_nat (length s))); auto. unfold int_max in *. lia. }
  destruct (alloc_str h s W) as (r&h'&P&W'&X&N&O). exists r, h'. unfold list_to_string.
  destruct I as (cl&[(On&_&->)|(c&Oc&C)]).
  - inversion G; subst cs. cbn [map] in M. subst s. rewrite (bind_ok _ _ _ _ _ (get_ok _ _ _ On)). cbv iota beta. split; [exact P|]. auto.
  - rewrite (bind_ok _ _ _ _ _ (get_ok _ _ _ Oc)). cbv iota beta. rewrite (bind_ok _ _ _ _ _ (elems_loop_ok _ _ _ _ C fuel ltac:(lia))).
    rewrite SC. split; [exact P|]. auto.
Qed.
Print Assumptions c30_list_to_string.
Theorem c30_round_trip : forall h s bs fuel, wf h -> h_obj h s = Some (OStr bs) -> bytes bs -> (length bs <= fuel)%nat -> Z.of_nat (length bs) < 2 ^ 31 ->
  exists l h1 r h2, string_to_list s h = Ok (l, h1) /\ list_to_string fuel l h1 = Ok (r, h2) /\
    h_obj h2 r = Some (OStr bs) /\ r <> s.
Proof.
  intros h s bs fuel W O B L R. destruct (c30_string_to_list h s bs W O B) as (l&h1&P&W1&X&C).
  destruct (c30_list_to_string h1 l bs fuel W1 C L R) as (r&h2&Q&W2&X2&N&O2). exists l, h1, r, h2. split; auto. split; auto. split; auto.
  intros ->. apply X in O. congruence.
Qed.
Print Assumptions c30_round_trip.
Theorem c30_char_integer_inverse : forall h a, wf h ->
  (forall c, h_obj h a = Some (OChar c) -> -128 <= c <= 127 ->
     exists n h1 r h2, char_to_integer a h = Ok (n, h1) /\ h_obj h1 n = Some (ONum (c mod 256)) /\
       integer_to_char n h1 = Ok (r, h2) /\ h_obj h2 r = Some (OChar c)) /\
  (forall z, h_obj h a = Some (ONum z) ->
     (0 <= z <= 255 -> exists c h1 r h2, integer_to_char a h = Ok (c, h1) /\ char_to_integer c h1 = Ok (r, h2) /\ h_obj h2 r = Some (ONum z)) /\
     (~ 0 <= z <= 255 -> integer_to_char a h = Err)).
Proof.
  intros h a W. split.
  - intros c O R. pose proof (uchar_byte c) as B. unfold is_byte in B. unfold char_to_integer. rewrite (bind_ok _ _ _ _ _ (get_chr_ok _ _ _ O)), alloc_eq.
    set (h1 := halloc h _). exists (h_next h), h1. 
    assert (G : h_obj h1 (h_next h) = Some (ONum (uchar c))) by (cbn; apply upd_same).
    unfold integer_to_char. rewrite (bind_ok _ _ _ _ _ (get_int_ok _ _ _ G)).
    destruct (Z.ltb_spec (uchar c) 0), (Z.ltb_spec 255 (uchar c)); try lia. cbn [orb]. rewrite alloc_eq.
    do 2 eexists. split; [reflexivity|]. split; [exact G|]. split; [reflexivity|]. cbn. rewrite upd_same. now rewrite schar_uchar.
  - intros z O. unfold integer_to_char. rewrite (bind_ok _ _ _ _ _ (get_int_ok _ _ _ O)).
    destruct (Z.ltb_spec z 0), (Z.ltb_spec 255 z); cbn [orb]; split; intros R; try lia; auto.
    rewrite alloc_eq. set (h1 := halloc h _). exists (h_next h), h1.
    assert (G : h_obj h1 (h_next h) = Some (OChar (schar z))) by (cbn; apply upd_same).
    unfold char_to_integer. rewrite (bind_ok _ _ _ _ _ (get_chr_ok _ _ _ G)), alloc_eq. do 2 eexists.
    split; [reflexivity|]. split; [reflexivity|]. cbn. rewrite upd_same. rewrite uchar_schar; auto.
Qed.
Print Assumptions c30_char_integer_inverse.
(** upcase/downcase change exactly the letters of the other case, by the ASCII
    offset, and are idempotent (on the code of the character) *)
Theorem c30_case_conversion : forall h a c, wf h -> h_obj h a = Some (OChar c) -> -128 <= c <= 127 ->
  exists u h1 d h2 cu cd, char_upcase a h = Ok (u, h1) /\ h_obj h1 u = Some (OChar cu) /\
    char_downcase a h = Ok (d, h2) /\ h_obj h2 d = Some (OChar cd) /\
    (lower_letter (c mod 256) -> cu mod 256 = c mod 256 - 32 /\ upper_letter (cu mod 256)) /\ (~ lower_letter (c mod 256) -> cu = c) /\
    (upper_letter (c mod 256) -> cd mod 256 = c mod 256 + 32 /\ lower_letter (cd mod 256)) /\ (~ upper_letter (c mod 256) -> cd = c) /\
    schar (toupper (uchar cu)) = cu /\ schar (tolower (uchar cd)) = cd.
Proof.
  intros h a c W O R. unfold char_upcase, char_downcase. rewrite !(bind_ok _ _ _ _ _ (get_chr_ok _ _ _ O)), !alloc_eq.
  do 6 eexists. split; [reflexivity|]. split; [cbn; apply upd_same|]. split; [reflexivity|]. split; [cbn; apply upd_same|].
  pose proof (uchar_byte c) as B. pose proof (schar_uchar c R) as SU. change (c mod 256) with (uchar c).
  change (schar (toupper (uchar c)) mod 256) with (uchar (schar (toupper (uchar c)))).
  change (schar (tolower (uchar c)) mod 256) with (uchar (schar (tolower (uchar c)))).
  assert (TB : is_byte (tolower (uchar c))) by (unfold is_byte, tolower in *; destruct (Z.leb_spec 65 (uchar c)), (Z.leb_spec (uchar c) 90); cbn [andb]; lia).
  rewrite !uchar_schar by (auto; now apply toupper_byte). unfold lower_letter, upper_letter, toupper, tolower.
  destruct (Z.leb_spec 97 (uchar c)), (Z.leb_spec (uchar c) 122), (Z.leb_spec 65 (uchar c)), (Z.leb_spec (uchar c) 90); cbn [andb]; try lia;
    (split; [lia|]); (split; [intros; try lia; auto|]); (split; [lia|]); (split; [intros; try lia; auto|]); split; f_equal;
    repeat match goal with |- context [?p <=? ?q] => destruct (Z.leb_spec p q) end; cbn [andb]; lia.
Qed.
Print Assumptions c30_case_conversion.
Example c30_nonvacuous : wf str_heap /\ h_obj str_heap 4%nat = Some (OStr [97;98;99]) /\ bytes [97;98;99] /\
  str_at (match string_to_list 4%nat str_heap with Ok (l, h) => list_to_string 9 l h | _ => Err end) = Some (OStr [97;98;99]).
Proof.
  split; [exact wf_str_heap|]. split; [reflexivity|]. split; [|vm_compute; reflexivity].
  repeat (apply Forall_cons; [unfold is_byte; lia|]). apply Forall_nil.
Qed.

(** C69: character comparisons are the order of the character codes; the ci
    versions the order of the codes of the upper-cased characters; the classes
    are the ASCII classes *)
Theorem c69_comparisons : forall h a b x y, h_obj h a = Some (OChar x) -> h_obj h b = Some (OChar y) ->
  -128 <= x <= 127 -> -128 <= y <= 127 ->
  exists eq lt gt le ge,
    chr_pred chr_eq a b h = Ok (bool_a eq, h) /\ (eq = true <-> x mod 256 = y mod 256) /\
    chr_pred chr_lt a b h = Ok (bool_a lt, h) /\ (lt = true <-> x mod 256 < y mod 256) /\
    chr_pred chr_gt a b h = Ok (bool_a gt, h) /\ (gt = true <-> x mod 256 > y mod 256) /\
    chr_pred chr_le a b h = Ok (bool_a le, h) /\ (le = true <-> x mod 256 <= y mod 256) /\
    chr_pred chr_ge a b h = Ok (bool_a ge, h) /\ (ge = true <-> x mod 256 >= y mod 256).
Proof.
  intros h a b x y A B X Y.
  assert (P : forall f, chr_pred f a b h = Ok (bool_a (f x y), h)).
  { intros f. unfold chr_pred. now rewrite (bind_ok _ _ _ _ _ (get_chr_ok _ _ _ A)), (bind_ok _ _ _ _ _ (get_chr_ok _ _ _ B)). }
  do 5 eexists. split; [apply P|]. split.
  { unfold chr_eq. rewrite Z.eqb_eq. split; [congruence|]. intros E. rewrite <- (schar_uchar x X), <- (schar_uchar y Y). unfold uchar. now rewrite E. }
  split; [apply P|]. split; [unfold chr_lt, uchar; lia|]. split; [apply P|]. split; [unfold chr_gt, uchar; lia|].
  split; [apply P|]. split; [unfold chr_le, uchar; lia|]. split; [apply P|unfold chr_ge, uchar; lia].
Qed.
Print Assumptions c69_comparisons.
Theorem c69_ci_comparisons : forall h a b x y, h_obj h a = Some (OChar x) -> h_obj h b = Some (OChar y) ->
  wf h -> -128 <= x <= 127 -> -128 <= y <= 127 ->
  exists ua h1 ub h2 f cx cy,
    char_upcase a h = Ok (ua, h1) /\ h_obj h1 ua = Some (OChar cx) /\ char_upcase b h = Ok (ub, h2) /\ h_obj h2 ub = Some (OChar cy) /\
    f = (fun p q => chr_pred p a b h = Ok (bool_a (q cx cy), h)) /\
    f chr_ci_eq chr_eq /\ f chr_ci_lt chr_lt /\ f chr_ci_gt chr_gt /\ f chr_ci_le chr_le /\ f chr_ci_ge chr_ge.
Proof.
  intros h a b x y A B W X Y. unfold char_upcase. rewrite (bind_ok _ _ _ _ _ (get_chr_ok _ _ _ A)), (bind_ok _ _ _ _ _ (get_chr_ok _ _ _ B)), !alloc_eq.
  do 7 eexists. split; [reflexivity|]. split; [cbn; apply upd_same|]. split; [reflexivity|]. split; [cbn; apply upd_same|]. split; [reflexivity|].
  assert (P : forall f, chr_pred f a b h = Ok (bool_a (f x y), h)).
  { intros f. unfold chr_pred. now rewrite (bind_ok _ _ _ _ _ (get_chr_ok _ _ _ A)), (bind_ok _ _ _ _ _ (get_chr_ok _ _ _ B)). }
  cbv beta. rewrite !P. pose proof (toupper_byte _ (uchar_byte x)). pose proof (toupper_byte _ (uchar_byte y)).
  unfold chr_ci_eq, chr_ci_lt, chr_ci_gt, chr_ci_le, chr_ci_ge, chr_eq, chr_lt, chr_gt, chr_le, chr_ge. rewrite !uchar_schar by auto.
  split; [|repeat split]. do 3 f_equal. apply eq_true_iff_eq. rewrite !Z.eqb_eq. split; [congruence|]. now apply schar_inj.
Qed.
Print Assumptions c69_ci_comparisons.
Theorem c69_classes : forall h a c, h_obj h a = Some (OChar c) ->
  exists al nu ws up lo,
    chr_class isalpha a h = Ok (bool_a al, h) /\ (al = true <-> lower_letter (c mod 256) \/ upper_letter (c mod 256)) /\
    chr_class isdigit a h = Ok (bool_a nu, h) /\ (nu = true <-> 48 <= c mod 256 <= 57) /\
    chr_class isspace a h = Ok (bool_a ws, h) /\ (ws = true <-> In (c mod 256) [32; 9; 10; 11; 12; 13]) /\
    chr_class isupper a h = Ok (bool_a up, h) /\ (up = true <-> upper_letter (c mod 256)) /\
    chr_class islower a h = Ok (bool_a lo, h) /\ (lo = true <-> lower_letter (c mod 256)).
Proof.
  intros h a c A.
  assert (P : forall f, chr_class f a h = Ok (bool_a (f (uchar c)), h)).
  { intros f. unfold chr_class. now rewrite (bind_ok _ _ _ _ _ (get_chr_ok _ _ _ A)). }
  unfold lower_letter, upper_letter. change (c mod 256) with (uchar c). set (u := uchar c) in *.
  do 5 eexists. split; [apply P|]. split; [unfold isalpha, isupper, islower; lia|]. split; [apply P|]. split; [unfold isdigit; lia|].
  split; [apply P|]. split; [unfold isspace; cbn [In]; lia|]. split; [apply P|]. split; [unfold isupper; lia|]. split; [apply P|unfold islower; lia].
Qed.
Print Assumptions c69_classes.
Example c69_nonvacuous : h_obj str_heap 6%nat = Some (OChar 122) /\ -128 <= 122 <= 127.
Proof. split; [reflexivity|lia]. Qed.
