(** The heap of a program with bounded live data is bounded. *)
From Verif Require Import Base GcModel GcSpec GcProofs GcProofs2 GcProofs3 GcProofs4 GcProofs5 GcPacingSpec GcPacing.
From Coq Require Import Lia Permutation.

Lemma program_good t : good_size (sizeof t).
Proof. destruct t; (split; [cbn; lia | cbn; intros; try lia; reflexivity]). Qed.
Lemma frugal_history page limit s v ever : frugal page limit s v ever -> history page s v ever.
Proof.
  induction 1 as [st A B C | s v ever os r t p s' v' H IH FM E WI LB
                 | s v ever v1 e v2 o s' H IH EV T E | s v ever r s' v' H IH E WI LB].
  - apply h_init; assumption.
  - apply (h_alloc page s v ever os r t (sizeof t) p s' v'); auto. apply program_good.
  - apply (h_write page s v ever v1 e v2 o s'); assumption.
  - apply (h_collect page s v ever r s' v'); assumption.
Qed.

Definition struct_size (n : Z) : Prop := n = 16 \/ n = 32 \/ n = 64 \/ n = 128 \/ n = 256.
Lemma struct_bucket n m : struct_size n -> struct_size m -> size_to_bucket n = size_to_bucket m -> n = m.
Proof.
  intros [-> | [-> | [-> | [-> | ->]]]] [-> | [-> | [-> | [-> | ->]]]]; cbv; intros; try reflexivity; discriminate.
Qed.
Lemma class_struct k : struct_size (class_size k).
Proof. unfold struct_size, class_size. destruct k as [|[|[|k]]]; auto. Qed.
Lemma class_bucket t : Nat.ltb (size_to_bucket (sizeof t)) NUM_FIXED_BUCKETS = true ->
  size_to_bucket (class_size (size_to_bucket (sizeof t))) = size_to_bucket (sizeof t).
Proof. destruct t; cbv; intros; try reflexivity; discriminate. Qed.
Lemma big_is_cont t : Nat.ltb (size_to_bucket (sizeof t)) NUM_FIXED_BUCKETS = false -> sizeof t = 256.
Proof. destruct t; cbv; intros; try reflexivity; discriminate. Qed.
Lemma overhead t n : struct_size n -> size_to_bucket n = size_to_bucket (sizeof t) ->
  2 * (16 + n) <= 3 * (16 + sizeof t) /\ 16 + n <= 272 /\ 0 <= sizeof t /\ 16 + sizeof t <= 272.
Proof.
  intros [-> | [-> | [-> | [-> | ->]]]]; destruct t; cbv; intros; try discriminate; intuition discriminate.
Qed.

(** * sums of block sizes by size class *)
Definition class_at (m : list (Z * block)) (k : nat) (a : Z) : bool :=
  match lookup m a with Some b => Nat.eqb (size_to_bucket (bsize b)) k | None => false end.
Definition allf (s : gc) (k : nat) (a : Z) : Z := if class_at (mem s) k a then ext (mem s) a else 0.
Definition usedf (s : gc) (k : nat) (a : Z) : Z :=
  if in_dec Z.eq_dec a (free s k) then 0 else allf s k a.

Lemma ext_nonneg s ts a : wf s ts -> 0 <= ext (mem s) a.
Proof.
  intros W. unfold ext. destruct (lookup (mem s) a) as [b|] eqn:L; [|lia].
  destruct (w_blk _ _ W _ _ L) as [A _]. lia.
Qed.
Lemma allf_nonneg s ts k a : wf s ts -> 0 <= allf s k a.
Proof. intros W. unfold allf. pose proof (ext_nonneg s ts a W). destruct (class_at _ _ _); lia. Qed.
Lemma sumz_nonneg f l : (forall a, 0 <= f a) -> 0 <= sumz f l.
Proof. intros H. induction l as [|a r IH]; cbn [sumz]; [lia|]. pose proof (H a). lia. Qed.

(** allf and usedf depend only on sizes *)
Lemma allf_sizes s s' k a : option_map bsize (lookup (mem s') a) = option_map bsize (lookup (mem s) a) ->
  allf s' k a = allf s k a.
Proof.
  intros E. unfold allf, class_at, ext.
  destruct (lookup (mem s) a) as [b|], (lookup (mem s') a) as [b'|]; try discriminate; [|reflexivity].
  cbn in E. injection E as E. rewrite E. reflexivity.
Qed.

(** the five classes cover every block *)
Lemma ext_classes s a :
  ext (mem s) a = allf s 0 a + (allf s 1 a + (allf s 2 a + (allf s 3 a + allf s 4 a))).
Proof.
  unfold allf, class_at, ext. destruct (lookup (mem s) a) as [b|]; [|reflexivity].
  pose proof (bucket_le (bsize b)) as B.
  destruct (size_to_bucket (bsize b)) as [|[|[|[|[|k]]]]]; cbn [Nat.eqb]; lia.
Qed.
Lemma sum_classes s l : sumz (ext (mem s)) l =
  sumz (allf s 0) l + (sumz (allf s 1) l + (sumz (allf s 2) l + (sumz (allf s 3) l + sumz (allf s 4) l))).
Proof.
  rewrite <- !sumz_add. apply sumz_ext. intros a _. apply ext_classes.
Qed.

(** * the bytes bumped in the segments are the blocks *)
Lemma tiling_sum m : forall l a b, tiling m a b l -> sumz (ext m) l = b - a.
Proof.
  induction l as [|x r IH]; intros a b T.
  - cbn in T. subst. cbn. lia.
  - destruct T as [-> [k [L T]]]. cbn [sumz]. rewrite (IH _ _ T). unfold ext. rewrite L. unfold HEADER. lia.
Qed.
Definition bumped (gs : list seg) : Z := fold_right (fun g n => sbump g - sstart g + n) 0 gs.
Lemma tiles_sum m : forall gs ts, Forall2 (fun g l => tiling m (sstart g) (sbump g) l) gs ts ->
  sumz (ext m) (concat ts) = bumped gs.
Proof.
  induction gs as [|g gs IH]; intros ts F; inversion F as [|? l ? tr T1 T2]; subst; [reflexivity|].
  cbn [concat bumped fold_right]. rewrite sumz_app, (tiling_sum _ _ _ _ T1), (IH _ T2). reflexivity.
Qed.

(** * the invariant *)
Definition top (limit : Z) : Z := Z.max 4194304 (limit * 3 / 2).
Record acct (page limit : Z) (s : gc) (l : list Z) : Prop := {
  a_nodup : NoDup l;
  a_dom : forall a, In a l <-> hdr s a;
  a_struct : forall a b, lookup (mem s) a = Some b -> struct_size (bsize b);
  a_used : forall k, 2 * sumz (usedf s k) l <= 2 * live_bytes s + 3 * since s;
  a_all : forall k, 2 * sumz (allf s k) l <= 2 * limit + 3 * (top limit + 272);
  a_live : 0 <= live_bytes s <= limit;
  a_since : 0 <= since s;
  a_th : threshold s <= top limit;
  a_full : forall g, In g (segs s) -> sstart g + ssize g < sbump g + 287;
  a_seg : forall g, In g (all_segs s) -> 4194304 <= ssize g < 8388608 + page
}.

Lemma acct_init page limit st : page_size page -> 0 <= limit -> acct page limit (gc_init st page) [].
Proof.
  intros PG L. constructor; cbn [mem segs free since live_bytes threshold gc_init lookup sumz].
  - constructor.
  - intros a. unfold hdr. cbn. split; [intros [] | congruence].
  - discriminate.
  - intros k. lia.
  - intros k. unfold top. lia.
  - lia.
  - lia.
  - unfold top. change (INITIAL_HEAP_SIZE / 2) with 4194304. lia.
  - intros g [].
  - intros g [<- | []]. cbn [ssize gc_init cur]. destruct PG as [P1 _].
    pose proof (round_up_facts INITIAL_HEAP_SIZE page ltac:(lia) ltac:(cbv; discriminate)) as [R _].
    change INITIAL_HEAP_SIZE with 8388608 in *. lia.
Qed.

Lemma acct_write page limit s l p o s' ts : wf s ts -> acct page limit s l -> write_obj s p o = Ok s' ->
  acct page limit s' l.
Proof.
  intros W A H. unfold write_obj, HEADER in H. destruct (lookup (mem s) (p - 16)) as [b|] eqn:L; [|discriminate].
  injection H as <-.
  assert (SZ : forall a, option_map bsize (lookup (store (mem s) (p - 16) (mkblock (bmark b) (btag b) (bsize b) o)) a)
            = option_map bsize (lookup (mem s) a)).
  { intros a. rewrite lookup_store. destruct (Z.eq_dec a (p - 16)) as [-> | N]; [rewrite L|]; reflexivity. }
  assert (AL : forall k a, allf (with_mem s (store (mem s) (p - 16) (mkblock (bmark b) (btag b) (bsize b) o))) k a
            = allf s k a) by (intros k a; apply allf_sizes; apply SZ).
  destruct A. constructor; try assumption.
  - intros a. rewrite a_dom0. unfold hdr. specialize (SZ a). cbn [mem with_mem].
    destruct (lookup (mem s) a), (lookup (store _ _ _) a); try discriminate; split; congruence.
  - intros a b' L'. cbn [mem with_mem] in L'. specialize (SZ a). rewrite L' in SZ. cbn in SZ.
    destruct (lookup (mem s) a) as [b0|] eqn:L0; [|discriminate]. injection SZ as ->. exact (a_struct0 _ _ L0).
  - intros k. rewrite (sumz_ext _ (usedf s k)); [apply a_used0|]. intros a _. unfold usedf. rewrite AL. reflexivity.
  - intros k. rewrite (sumz_ext _ (allf s k)); [apply a_all0|]. intros a _. apply AL.
Qed.

Lemma acct_gc page limit s l ts r s' : wf s ts -> unmarked s -> acct page limit s l -> run_gc r s = Ok s' ->
  live_bytes s' <= limit -> acct page limit s' l.
Proof.
  intros W U A H LB.
  destruct (run_gc_spec s ts r s' W U H) as [W' [_ [F [SI [HD [_ [SZ FREE]]]]]]].
  destruct (run_gc_counts s ts r s' W U H) as [u [ND [IU [LV [TH _]]]]].
  assert (SZ' : forall a, option_map bsize (lookup (mem s') a) = option_map bsize (lookup (mem s) a)).
  { intros a. destruct (lookup (mem s) a) as [b|] eqn:L.
    - destruct (SZ _ _ L) as [b' [L' [E _]]]. rewrite L'. cbn. congruence.
    - destruct (lookup (mem s') a) as [b'|] eqn:L'; [|reflexivity]. exfalso.
      assert (X : hdr s' a) by (unfold hdr; congruence). apply HD in X. apply X. exact L. }
  assert (LN : 0 <= live_bytes s').
  { rewrite LV. apply sumz_nonneg. intros a. exact (ext_nonneg s' ts a W'). }
  destruct A. constructor.
  - assumption.
  - intros a. rewrite a_dom0. symmetry. apply HD.
  - intros a b' L'. specialize (SZ' a). rewrite L' in SZ'. cbn in SZ'.
    destruct (lookup (mem s) a) as [b0|] eqn:L0; [|discriminate]. injection SZ' as ->. exact (a_struct0 _ _ L0).
  - intros k. rewrite SI, LV.
    assert (X : sumz (usedf s' k) l <= sumz (ext (mem s')) u); [|lia].
    (* both as sums over l *)
    assert (Y : sumz (ext (mem s')) u =
      sumz (fun a => if existsb (fun k => if in_dec Z.eq_dec a (free s' k) then true else false) [0%nat;1%nat;2%nat;3%nat;4%nat] then 0 else ext (mem s') a) l).
    { rewrite <- (sumz_same (ext (mem s')) (filter (fun a => negb (existsb (fun k => if in_dec Z.eq_dec a (free s' k) then true else false) [0%nat;1%nat;2%nat;3%nat;4%nat])) l) u).
      - rewrite sumz_filter. apply sumz_ext. intros a _. destruct (existsb _ _); reflexivity.
      - apply NoDup_filter. assumption.
      - exact ND.
      - intros a. rewrite filter_In, IU, a_dom0, <- HD. split.
        + intros [Ha N]. split; [exact Ha|]. intros k' I. apply negb_true_iff in N.
          assert (E : existsb (fun k => if in_dec Z.eq_dec a (free s' k) then true else false) [0%nat;1%nat;2%nat;3%nat;4%nat] = true).
          { apply existsb_exists. exists k'. split.
            - apply FREE in I. destruct I as [_ [b [_ <-]]]. pose proof (bucket_le (bsize b)).
              cbn [In]. destruct (size_to_bucket (bsize b)) as [|[|[|[|[|j]]]]]; auto; lia.
            - destruct (in_dec Z.eq_dec a (free s' k')); [reflexivity | contradiction]. }
          congruence.
        + intros [Ha N]. split; [exact Ha|]. apply negb_true_iff. apply not_true_is_false. intros E.
          apply existsb_exists in E. destruct E as [k' [_ E]].
          destruct (in_dec Z.eq_dec a (free s' k')) as [I | I]; [exact (N k' I) | discriminate]. }
    rewrite Y. apply sumz_le. intros a I. unfold usedf, allf.
    pose proof (ext_nonneg s' ts a W') as EN.
    destruct (existsb _ _) eqn:EX.
    + apply existsb_exists in EX. destruct EX as [k' [_ E]].
      destruct (in_dec Z.eq_dec a (free s' k')) as [I' | I']; [|discriminate].
      destruct (in_dec Z.eq_dec a (free s' k)) as [J | J]; [lia|].
      destruct (class_at (mem s') k a) eqn:CA; [|lia]. exfalso.
      destruct (w_free _ _ W' _ _ I') as [b [L E']]. unfold class_at in CA. rewrite L in CA.
      apply Nat.eqb_eq in CA. congruence.
    + destruct (in_dec _ _ _); [lia|]. destruct (class_at _ _ _); lia.
  - intros k. rewrite (sumz_ext _ (allf s k)); [apply a_all0|]. intros a _. apply allf_sizes. apply SZ'.
  - lia.
  - lia.
  - rewrite TH. unfold top. pose proof (Z.div_le_mono (live_bytes s' * 3) (limit * 3) 2 ltac:(lia) ltac:(lia)). lia.
  - rewrite <- (f_segs _ _ F). assumption.
  - rewrite (frame_all _ _ F). assumption.
Qed.

(** * allocation *)
Lemma bump_shape os page n s a s' ts : page_size page -> wf s ts -> 0 <= n <= 272 -> bump_allocate os page n s = Ok (a, s') ->
  (forall g, In g (all_segs s) -> 4194304 <= ssize g < 8388608 + page) ->
  (forall g, In g (segs s) -> sstart g + ssize g < sbump g + 287) ->
  (forall g, In g (all_segs s') -> 4194304 <= ssize g < 8388608 + page) /\
  (forall g, In g (segs s') -> sstart g + ssize g < sbump g + 287).
Proof.
  intros PG W N H AS AF. unfold bump_allocate in H. cbv zeta in H.
  assert (R16 : forall x, 0 <= x -> x <= (if Z.land x 15 =? 0 then x else round_up x 16) <= x + 15).
  { intros x X. destruct (Z.land x 15 =? 0); [lia|].
    pose proof (round_up_facts x 16 ltac:(lia) X) as [R _]. lia. }
  destruct (w_seg _ _ W (cur s)) as [S1 _]; [unfold all_segs; rewrite in_app_iff; right; left; reflexivity|].
  destruct (Forall2_app_inv _ _ _ _ (w_tiles _ _ W)) as [t0 [lc [_ [_ TC]]]].
  pose proof (tiling_le _ _ _ _ (w_blk _ _ W) TC) as TL.
  assert (TT := R16 n ltac:(lia)). assert (BB := R16 (sbump (cur s)) ltac:(lia)).
  set (tt := if Z.land n 15 =? 0 then n else round_up n 16) in *.
  set (bb := if Z.land (sbump (cur s)) 15 =? 0 then sbump (cur s) else round_up (sbump (cur s)) 16) in *.
  assert (T272 : tt <= 272).
  { unfold tt. destruct (Z.land n 15 =? 0) eqn:E; [lia|].
    unfold round_up. assert ((n + 16 - 1) / 16 <= 287 / 16) by (apply Z.div_le_mono; lia).
    change (287 / 16) with 17 in H0. lia. }
  clearbody tt bb.
  destruct (bb + tt >? sstart (cur s) + ssize (cur s)) eqn:E.
  - rewrite Z.gtb_ltb in E. apply Z.ltb_lt in E.
    replace (tt >? GROWTH_SIZE) with false in H by (symmetry; rewrite Z.gtb_ltb; apply Z.ltb_ge; unfold GROWTH_SIZE; lia).
    destruct PG as [P1 _].
    pose proof (round_up_facts GROWTH_SIZE page ltac:(lia) ltac:(cbv; discriminate)) as [R _].
    set (gg := round_up GROWTH_SIZE page) in *. clearbody gg. change GROWTH_SIZE with 4194304 in R.
    destruct (os gg) as [st|]; [|discriminate].
    destruct (Nat.leb _ _); [discriminate|]. injection H as <- <-. cbn [segs]. split.
    + intros g I. unfold all_segs in I. cbn [segs cur] in I. apply in_app_iff in I.
      destruct I as [I | [<- | []]]; [apply AS; exact I|]. cbn [ssize]. lia.
    + intros g I. unfold all_segs in I. apply in_app_iff in I. destruct I as [I | [<- | []]]; [apply AF; exact I|]. lia.
  - injection H as <- <-. cbn [segs]. split; [|exact AF].
    intros g I. unfold all_segs in I. cbn [segs cur] in I. apply in_app_iff in I.
    destruct I as [I | [<- | []]].
    + apply AS. unfold all_segs. apply in_app_iff. auto.
    + cbn [ssize]. apply AS. unfold all_segs. apply in_app_iff. right. left. reflexivity.
Qed.

Lemma alloc_shape os page t s ts p s' : page_size page -> wf s ts ->
  (forall a b, lookup (mem s) a = Some b -> struct_size (bsize b)) ->
  alloc_core os page t (sizeof t) s = Ok (p, s') ->
  let k := size_to_bucket (sizeof t) in
  (exists b, lookup (mem s') (p - 16) = Some b /\ struct_size (bsize b) /\ size_to_bucket (bsize b) = k) /\
  ((In (p - 16) (free s k) /\ segs s' = segs s /\ cur s' = cur s) \/
   (free s k = [] /\ free s' = free s /\ exists n s3, 0 <= n <= 272 /\ bump_allocate os page n s = Ok (p - 16, s3) /\
      segs s' = segs s3 /\ cur s' = cur s3)).
Proof.
  intros PG W ST H k. unfold alloc_core in H. cbv zeta in H. fold k in H.
  assert (SM : forall n, struct_size n -> n mod 2 ^ 32 = n).
  { intros n [-> | [-> | [-> | [-> | ->]]]]; reflexivity. }
  destruct (Nat.ltb k NUM_FIXED_BUCKETS) eqn:E.
  - pose proof (class_bucket t E) as CB. fold k in CB.
    destruct (free s k) as [|a rest] eqn:F.
    + destruct (bump_allocate os page (16 + class_size k) s) as [[a s3]| | | |] eqn:BA; try discriminate.
      cbn [bind] in H. unfold HEADER in H. injection H as <- <-. replace (a + 16 - 16) with a by lia.
      destruct (bump_counters _ _ _ _ _ _ BA) as [_ [FR _]]. split.
      * eexists. split; [unfold install; cbn [mem with_mem]; apply lookup_store_eq|]. cbn [bsize].
        rewrite (SM _ (class_struct k)). split; [apply class_struct | exact CB].
      * right. split; [reflexivity|]. split; [exact FR|]. exists (16 + class_size k), s3.
        pose proof (class_struct k) as CS. split; [unfold struct_size in CS; lia|]. split; [exact BA|]. auto.
    + unfold HEADER in H. injection H as <- <-. replace (a + 16 - 16) with a by lia. split.
      * eexists. split; [unfold install; cbn [mem with_mem]; apply lookup_store_eq|]. cbn [bsize].
        rewrite (SM _ (class_struct k)). split; [apply class_struct | exact CB].
      * left. split; [left; reflexivity|]. auto.
  - pose proof (big_is_cont t E) as BC. assert (KL : k = LARGE_BUCKET) by (unfold k; rewrite BC; reflexivity).
    rewrite KL, BC in *.
    destruct (first_fit (mem s) 256 (free s LARGE_BUCKET)) as [[a rest]|] eqn:FF.
    + destruct (first_fit_spec _ _ _ _ _ FF) as [[b [Lb LE]] [_ [_ IA]]].
      cbn [mem with_free] in H. rewrite Lb in H. unfold HEADER in H. injection H as <- <-.
      replace (a + 16 - 16) with a by lia.
      assert (SB : bsize b = 256) by (destruct (ST _ _ Lb) as [X | [X | [X | [X | X]]]]; lia). split.
      * eexists. split; [unfold install; cbn [mem with_mem]; apply lookup_store_eq|]. cbn [bsize]. rewrite SB.
        split; [right; right; right; right; reflexivity | reflexivity].
      * left. split; [exact IA|]. auto.
    + assert (F0 : free s LARGE_BUCKET = []).
      { destruct (free s LARGE_BUCKET) as [|a r] eqn:F; [reflexivity|]. exfalso.
        destruct (w_free _ _ W LARGE_BUCKET a) as [b [L EB]]; [rewrite F; left; reflexivity|].
        assert (SB : bsize b = 256).
        { destruct (ST _ _ L) as [X | [X | [X | [X | X]]]]; rewrite X in EB; cbv in EB; try discriminate. exact X. }
        cbn [first_fit] in FF. rewrite L, SB in FF. cbn in FF. discriminate. }
      change (16 + 256) with 272 in H.
      destruct (bump_allocate os page 272 s) as [[a s3]| | | |] eqn:BA; try discriminate.
      cbn [bind] in H. unfold HEADER in H. injection H as <- <-. replace (a + 16 - 16) with a by lia.
      destruct (bump_counters _ _ _ _ _ _ BA) as [_ [FR _]]. split.
      * eexists. split; [unfold install; cbn [mem with_mem]; apply lookup_store_eq|]. cbn [bsize].
        split; [right; right; right; right; reflexivity | reflexivity].
      * right. split; [exact F0|]. split; [exact FR|]. exists 272, s3. split; [lia|]. auto.
Qed.

Lemma acct_core os page limit t s ts l p s' :
  page_size page -> fresh_mapping page s os -> wf s ts -> unmarked s -> 0 <= limit ->
  acct page limit s l -> since s < threshold s ->
  alloc_core os page t (sizeof t) (charge (sizeof t) s) = Ok (p, s') ->
  exists l', acct page limit s' l'.
Proof.
  intros PG FM W U LN A TH H.
  pose proof (charge_wf (sizeof t) s ts W) as WC.
  destruct (alloc_core_spec os page t (sizeof t) (charge (sizeof t) s) ts p s' PG FM (program_good t) WC U H)
    as [sz [SZ [FB [_ BU]]]].
  destruct (alloc_shape os page t (charge (sizeof t) s) ts p s' PG WC (a_struct _ _ _ _ A) H)
    as [[b [LB [SB KB]]] SH].
  destruct (alloc_core_counters _ _ _ _ _ _ _ H) as [C1 [C2 [C3 _]]].
  cbn [charge since live_bytes threshold] in C1, C2, C3.
  rewrite (n_new _ _ _ _ _ FB) in LB. injection LB as <-. cbn [bsize] in SB, KB.
  destruct (overhead t sz SB KB) as [O1 [O2 [O3 O4]]].
  set (k0 := size_to_bucket (sizeof t)) in *. set (a := p - 16) in *.
  change (mem (charge (sizeof t) s)) with (mem s) in *.
  change (free (charge (sizeof t) s)) with (free s) in *.
  pose proof (n_wf _ _ _ _ _ FB) as [ts' W'].
  assert (LN' : lookup (mem s') a = Some (mkblock false t sz (zero_obj t))) by exact (n_new _ _ _ _ _ FB).
  assert (LO : forall x, x <> a -> lookup (mem s') x = lookup (mem s) x) by exact (n_old _ _ _ _ _ FB).
  assert (AO : forall k x, x <> a -> allf s' k x = allf s k x).
  { intros k x N. apply allf_sizes. rewrite LO by exact N. reflexivity. }
  assert (AN : forall k, allf s' k a = if Nat.eqb k0 k then 16 + sz else 0).
  { intros k. unfold allf, class_at, ext. rewrite LN'. cbn [bsize]. rewrite KB. reflexivity. }
  assert (UO : forall k x, x <> a -> usedf s' k x = usedf s k x).
  { intros k x N. unfold usedf. rewrite AO by exact N.
    destruct (in_dec Z.eq_dec x (free s' k)) as [I | I], (in_dec Z.eq_dec x (free s k)) as [J | J]; try reflexivity.
    - exfalso. apply J. apply (n_free _ _ _ _ _ FB k x I).
    - exfalso. apply I. apply (n_keep _ _ _ _ _ FB k x J N). }
  assert (UN : forall k, usedf s' k a <= if Nat.eqb k0 k then 16 + sz else 0).
  { intros k. unfold usedf. rewrite AN. pose proof SB as SB'. unfold struct_size in SB'.
    destruct (in_dec _ _ _); destruct (Nat.eqb k0 k); lia. }
  assert (STR : forall x c, lookup (mem s') x = Some c -> struct_size (bsize c)).
  { intros x c Lx. destruct (Z.eq_dec x a) as [-> | N].
    - rewrite LN' in Lx. injection Lx as <-. exact SB.
    - rewrite LO in Lx by exact N. exact (a_struct _ _ _ _ A _ _ Lx). }
  pose proof (a_live _ _ _ _ A) as ALV. pose proof (a_since _ _ _ _ A) as ASI. pose proof (a_th _ _ _ _ A) as ATH.
  destruct SH as [[IA [SG CU]] | [F0 [FS [n [s3 [N [BA [SG CU]]]]]]]].
  - (* a block from the free list *)
    exists l.
    destruct (w_free _ _ W _ _ IA) as [b0 [L0 E0]].
    assert (SZ0 : bsize b0 = sz).
    { apply struct_bucket; [exact (a_struct _ _ _ _ A _ _ L0) | exact SB | congruence]. }
    assert (IL : In a l) by (apply (a_dom _ _ _ _ A); unfold hdr; congruence).
    assert (OA : forall k, allf s k a = if Nat.eqb k0 k then 16 + sz else 0).
    { intros k. unfold allf, class_at, ext. rewrite L0, E0, SZ0. reflexivity. }
    constructor.
    + exact (a_nodup _ _ _ _ A).
    + intros x. rewrite (a_dom _ _ _ _ A). unfold hdr. destruct (Z.eq_dec x a) as [-> | NE]; [|rewrite LO by exact NE; tauto].
      rewrite LN', L0. split; discriminate.
    + exact STR.
    + intros k. rewrite C1, C2.
      rewrite (sumz_update (usedf s' k) (usedf s k) a l (a_nodup _ _ _ _ A) IL (UO k)).
      pose proof (a_used _ _ _ _ A k) as UK. pose proof (UN k) as UNK.
      assert (U0 : 0 <= usedf s k a).
      { unfold usedf. destruct (in_dec _ _ _); [lia|]. apply (allf_nonneg s ts k a W). }
      destruct (Nat.eqb k0 k); lia.
    + intros k. rewrite (sumz_ext (allf s' k) (allf s k)); [apply (a_all _ _ _ _ A)|].
      intros x _. destruct (Z.eq_dec x a) as [-> | NE]; [rewrite AN, OA; reflexivity | apply AO; exact NE].
    + lia.
    + lia.
    + lia.
    + rewrite SG. exact (a_full _ _ _ _ A).
    + unfold all_segs. rewrite SG, CU. exact (a_seg _ _ _ _ A).
  - (* a new block *)
    assert (NH : lookup (mem s) a = None).
    { destruct (n_was _ _ _ _ _ FB) as [X | [k X]]; [exact X|]. exfalso.
      change (free (charge (sizeof t) s)) with (free s) in X. rewrite <- FS in X.
      apply (n_free _ _ _ _ _ FB) in X. destruct X as [_ X]. congruence. }
    assert (NI : ~ In a l) by (intros I; apply (a_dom _ _ _ _ A) in I; apply I; exact NH).
    assert (SA : forall k, sumz (allf s' k) (a :: l) = (if Nat.eqb k0 k then 16 + sz else 0) + sumz (allf s k) l).
    { intros k. cbn [sumz]. rewrite AN. f_equal. apply sumz_ext. intros x I. apply AO. intros ->. contradiction. }
    assert (SU : forall k, sumz (usedf s' k) (a :: l) <= (if Nat.eqb k0 k then 16 + sz else 0) + sumz (usedf s k) l).
    { intros k. cbn [sumz]. pose proof (UN k).
      rewrite (sumz_ext (usedf s' k) (usedf s k) l); [lia|]. intros x I. apply UO. intros ->. contradiction. }
    assert (UF : sumz (usedf s k0) l = sumz (allf s k0) l).
    { apply sumz_ext. intros x _. unfold usedf. rewrite F0. reflexivity. }
    destruct (bump_shape os page n (charge (sizeof t) s) a s3 ts PG WC N BA (a_seg _ _ _ _ A) (a_full _ _ _ _ A))
      as [BS BF].
    exists (a :: l). constructor.
    + constructor; [exact NI | exact (a_nodup _ _ _ _ A)].
    + intros x. cbn [In]. rewrite (a_dom _ _ _ _ A). unfold hdr.
      destruct (Z.eq_dec x a) as [-> | NE]; [rewrite LN'; split; [discriminate | auto]|].
      rewrite LO by exact NE. split; [intros [X | X]; [congruence | exact X] | auto].
    + exact STR.
    + intros k. rewrite C1, C2. pose proof (SU k). pose proof (a_used _ _ _ _ A k). destruct (Nat.eqb k0 k); lia.
    + intros k. rewrite SA. destruct (Nat.eqb k0 k) eqn:EK; [|pose proof (a_all _ _ _ _ A k); lia].
      apply Nat.eqb_eq in EK. subst k. rewrite <- UF. pose proof (a_used _ _ _ _ A k0). lia.
    + lia.
    + lia.
    + lia.
    + rewrite SG. exact BF.
    + unfold all_segs. rewrite SG, CU. exact BS.
Qed.

Lemma frugal_acct page limit s v ever : 0 <= limit -> frugal page limit s v ever -> exists l, acct page limit s l.
Proof.
  intros LN H. induction H as [st A B C | s v ever os r t p s' v' H IH FM E WI LB
                 | s v ever v1 e v2 o s' H IH EV T E | s v ever r s' v' H IH E WI LB].
  - exists []. apply acct_init; assumption.
  - destruct IH as [l A]. pose proof (frugal_history _ _ _ _ _ H) as HH.
    destruct (history_inv _ _ _ _ HH) as [PG [ts [W [U V]]]].
    rewrite gc_alloc_core in E.
    destruct (threshold s <=? since s) eqn:Q.
    + destruct (run_gc r s) as [s1| | | |] eqn:E1; try discriminate. cbn [bind] in E.
      destruct (run_gc_spec s ts r s1 W U E1) as [W1 [U1 [F1 _]]].
      destruct (run_gc_counters r s s1 E1) as [SI TH].
      destruct (alloc_core_counters _ _ _ _ _ _ _ E) as [_ [C2 _]]. cbn [charge live_bytes] in C2.
      apply (acct_core os page limit t s1 ts l p s'); auto.
      * apply (frame_mapping page s); assumption.
      * apply (acct_gc page limit s l ts r s1); auto. lia.
      * lia.
    + cbn [bind] in E. apply Z.leb_gt in Q. apply (acct_core os page limit t s ts l p s'); auto.
  - destruct IH as [l A]. exists l.
    destruct (history_inv _ _ _ _ (frugal_history _ _ _ _ _ H)) as [_ [ts [W _]]].
    apply (acct_write page limit s l (e_ptr e) o s' ts); assumption.
  - destruct IH as [l A]. exists l.
    destruct (history_inv _ _ _ _ (frugal_history _ _ _ _ _ H)) as [_ [ts [W [U _]]]].
    apply (acct_gc page limit s l ts r s'); assumption.
Qed.

Lemma bumped_lower gs : (forall g, In g gs -> sstart g + ssize g < sbump g + 287 /\ 4194304 <= ssize g) ->
  Z.of_nat (length gs) * 4194017 <= bumped gs.
Proof.
  induction gs as [|g r IH]; intros H; [cbn; lia|].
  pose proof (H g (or_introl eq_refl)) as [A B]. assert (IHr : Z.of_nat (length r) * 4194017 <= bumped r).
  { apply IH. intros x I. apply H. right. exact I. }
  cbn [length bumped fold_right]. fold (bumped r). lia.
Qed.
Lemma bumped_app a b : bumped (a ++ b) = bumped a + bumped b.
Proof. unfold bumped. induction a as [|g r IH]; cbn [app fold_right]; lia. Qed.

Lemma heap_bound page limit s v ever : 0 <= limit -> frugal page limit s v ever ->
  2 * (Z.of_nat (length (segs s)) * 4194017) <= 5 * (2 * limit + 3 * (top limit + 272)) /\
  (forall g, In g (all_segs s) -> ssize g < 8388608 + page).
Proof.
  intros LN H. destruct (frugal_acct page limit s v ever LN H) as [l A].
  destruct (history_inv _ _ _ _ (frugal_history _ _ _ _ _ H)) as [_ [ts [W _]]].
  split; [|intros g I; apply (a_seg _ _ _ _ A g I)].
  pose proof (tiles_sum _ _ _ (w_tiles _ _ W)) as S1.
  rewrite (sumz_same (ext (mem s)) (concat ts) l (wf_nodup _ _ W) (a_nodup _ _ _ _ A)) in S1.
  - rewrite sum_classes in S1. unfold all_segs in S1. rewrite bumped_app in S1.
    pose proof (a_all _ _ _ _ A 0%nat). pose proof (a_all _ _ _ _ A 1%nat). pose proof (a_all _ _ _ _ A 2%nat).
    pose proof (a_all _ _ _ _ A 3%nat). pose proof (a_all _ _ _ _ A 4%nat).
    assert (B0 : 0 <= bumped [cur s]).
    { destruct (Forall2_app_inv _ _ _ _ (w_tiles _ _ W)) as [t0 [lc [_ [_ TC]]]].
      pose proof (tiling_le _ _ _ _ (w_blk _ _ W) TC) as TL. cbn [bumped fold_right]. lia. }
    pose proof (bumped_lower (segs s)) as BL.
    assert (BL' : Z.of_nat (length (segs s)) * 4194017 <= bumped (segs s)).
    { apply BL. intros g I. split; [apply (a_full _ _ _ _ A g I)|].
      assert (I' : In g (all_segs s)) by (unfold all_segs; apply in_app_iff; auto).
      pose proof (a_seg _ _ _ _ A g I'). lia. }
    lia.
  - intros a. rewrite (a_dom _ _ _ _ A). split.
    + intros I. destruct (tiles_hdr s ts a W I) as [b L]. unfold hdr. congruence.
    + intros Ha. destruct (hdr_lookup _ _ Ha) as [b L]. exact (w_dom _ _ W _ _ L).
Qed.
