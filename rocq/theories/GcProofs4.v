(** Allocation keeps the heap invariant and returns a block nobody uses. *)
From Verif Require Import Base GcModel GcSpec GcProofs GcProofs2 GcProofs3.
From Coq Require Import Lia.

Lemma zero_tag t : tag_of (zero_obj t) = t.
Proof. destruct t; reflexivity. Qed.

Lemma bucket_le n : (size_to_bucket n <= 4)%nat.
Proof. unfold size_to_bucket, LARGE_BUCKET. repeat destruct (_ <=? _); lia. Qed.
Lemma bucket_small n : 0 <= n -> (size_to_bucket n < 4)%nat ->
  n <= class_size (size_to_bucket n) /\ n <= 128 /\
  size_to_bucket (class_size (size_to_bucket n)) = size_to_bucket n /\
  block_ok (mkblock false GC_SCM (class_size (size_to_bucket n)) SString).
Proof.
  intros P H. unfold size_to_bucket, LARGE_BUCKET, block_ok in *. cbn [bsize].
  destruct (n <=? 16) eqn:E1; [apply Z.leb_le in E1; cbn; repeat split; lia|].
  destruct (n <=? 32) eqn:E2; [apply Z.leb_le in E2; cbn; repeat split; lia|].
  destruct (n <=? 64) eqn:E3; [apply Z.leb_le in E3; cbn; repeat split; lia|].
  destruct (n <=? 128) eqn:E4; [apply Z.leb_le in E4; cbn; repeat split; lia|lia].
Qed.
Lemma bucket_large n : size_to_bucket n = 4%nat -> 128 < n.
Proof.
  unfold size_to_bucket. destruct (n <=? 16) eqn:E1; [discriminate|].
  destruct (n <=? 32); [discriminate|]. destruct (n <=? 64); [discriminate|].
  destruct (n <=? 128) eqn:E; [discriminate|]. apply Z.leb_gt in E. lia.
Qed.

(** overwriting an existing block with one of the same size, and taking blocks
    off free lists, keeps the invariant *)
Lemma wf_reuse s ts a b t o f : wf s ts -> lookup (mem s) a = Some b -> tag_of o = t ->
  (forall k x, In x (f k) -> In x (free s k)) -> (forall k, NoDup (f k)) ->
  wf (with_mem (with_free s f) (store (mem s) a (mkblock false t (bsize b) o))) ts.
Proof.
  intros W L T F N.
  assert (LK : forall x c, lookup (store (mem s) a (mkblock false t (bsize b) o)) x = Some c ->
            exists c0, lookup (mem s) x = Some c0 /\ bsize c = bsize c0 /\ (btag c0 = tag_of (bobj c0) -> btag c = tag_of (bobj c))).
  { intros x c. rewrite lookup_store. destruct (Z.eq_dec x a) as [-> | NE].
    - intros E. injection E as <-. exists b. cbn. auto.
    - intros E. exists c. auto. }
  assert (SZ : forall x, option_map bsize (lookup (store (mem s) a (mkblock false t (bsize b) o)) x)
                       = option_map bsize (lookup (mem s) x)).
  { intros x. rewrite lookup_store. destruct (Z.eq_dec x a) as [-> | NE]; [rewrite L|]; reflexivity. }
  constructor; cbn [mem segs cur heap_lo heap_hi free with_mem with_free]; unfold all_segs;
    cbn [segs cur with_mem with_free]; fold (all_segs s).
  - apply (Forall2_mono (fun g l => tiling (mem s) (sstart g) (sbump g) l)); [|exact (w_tiles _ _ W)].
    intros g l TT. apply (tiling_ext (mem s)); [|exact TT]. intros x. symmetry. apply SZ.
  - intros x c E. destruct (LK x c E) as [c0 [E0 _]]. exact (w_dom _ _ W _ _ E0).
  - exact (w_seg _ _ W).
  - exact (w_disj _ _ W).
  - intros x c E. destruct (LK x c E) as [c0 [E0 [Z0 _]]]. pose proof (w_blk _ _ W _ _ E0) as K.
    unfold block_ok in *. rewrite Z0. exact K.
  - intros x c E. destruct (LK x c E) as [c0 [E0 [_ TG]]]. apply TG. exact (w_tag _ _ W _ _ E0).
  - intros k x I. apply F in I. destruct (w_free _ _ W _ _ I) as [c0 [E0 SB]].
    specialize (SZ x). rewrite E0 in SZ.
    destruct (lookup (store (mem s) a (mkblock false t (bsize b) o)) x) as [c|]; [|discriminate].
    injection SZ as SZ. exists c. split; [reflexivity | rewrite SZ; exact SB].
  - exact N.
  - exact (w_hi _ _ W).
Qed.

Lemma tiling_end m : forall l a b, (forall x k, lookup m x = Some k -> block_ok k) ->
  a mod 16 = 0 -> tiling m a b l -> b mod 16 = 0.
Proof.
  induction l as [|x r IH]; intros a b K A H; [cbn in H; subst; exact A|].
  destruct H as [-> [k [L H]]]. destruct (K _ _ L) as [_ [B _]]. apply (IH _ _ K) in H; [exact H|].
  unfold HEADER. rewrite Z.add_mod, (Z.add_mod 16), A, B by lia. reflexivity.
Qed.
Lemma tiling_snoc m : forall l a b k, tiling m a b l -> lookup m b = Some k ->
  tiling m a (b + (HEADER + bsize k)) (l ++ [b]).
Proof.
  induction l as [|x r IH]; intros a b k H L.
  - cbn in H. subst. cbn. split; [reflexivity|]. exists k. auto.
  - destruct H as [-> [k' [L' H]]]. cbn [app tiling]. split; [reflexivity|]. exists k'. split; [exact L'|].
    apply IH; assumption.
Qed.
Lemma tiling_store m a b : forall l x y, ~ In a l -> tiling m x y l -> tiling (store m a b) x y l.
Proof.
  induction l as [|z r IH]; intros x y N H; [exact H|].
  destruct H as [-> [k [L H]]]. cbn [tiling]. split; [reflexivity|]. exists k. split.
  - rewrite lookup_store_ne; [exact L|]. intros ->. apply N. left. reflexivity.
  - apply IH; [|exact H]. intros I. apply N. right. exact I.
Qed.
Lemma Forall2_app_inv {A B} (P : A -> B -> Prop) l1 x l2 : Forall2 P (l1 ++ [x]) l2 ->
  exists m1 y, l2 = m1 ++ [y] /\ Forall2 P l1 m1 /\ P x y.
Proof.
  revert l2. induction l1 as [|a r IH]; intros l2 H; cbn in H.
  - inversion H as [|? y ? ? H1 H2]; subst. inversion H2; subst. exists [], y. auto.
  - inversion H as [|? b ? m H1 H2]; subst. destruct (IH _ H2) as [m1 [y [-> [F Q]]]].
    exists (b :: m1), y. split; [reflexivity|]. split; [constructor; assumption | exact Q].
Qed.
Lemma FOP_app_last {A} (R : A -> A -> Prop) l x :
  ForallOrdPairs R (l ++ [x]) <-> ForallOrdPairs R l /\ Forall (fun y => R y x) l.
Proof.
  induction l as [|a r IH]; cbn.
  - split; [intros _; split; constructor | intros _; constructor; constructor].
  - split.
    + intros H. inversion H as [|? ? F H']; subst. apply IH in H'. destruct H' as [H1 H2].
      apply Forall_app in F. destruct F as [F1 F2]. inversion F2; subst.
      split; constructor; assumption.
    + intros [H F]. inversion H as [|? ? F1 H1]; subst. inversion F as [|? ? F2 F3]; subst.
      constructor; [|apply IH; auto]. apply Forall_app. split; [exact F1 | constructor; [exact F2 | constructor]].
Qed.
Lemma round_up_facts n m : 0 < m -> 0 <= n -> n <= round_up n m < n + m /\ (round_up n m) mod m = 0.
Proof.
  intros P Q. unfold round_up. split.
  - pose proof (Z.div_mod (n + m - 1) m ltac:(lia)). pose proof (Z.mod_pos_bound (n + m - 1) m P). nia.
  - apply Z.mod_mul. lia.
Qed.
Lemma mod16_page st page : page_size page -> st mod page = 0 -> st mod 16 = 0.
Proof.
  intros [P1 P2] H. apply Z.mod_divide; [lia|].
  apply Z.mod_divide in H; [|lia]. apply Z.mod_divide in P2; [|lia].
  apply (Z.divide_trans _ page); assumption.
Qed.

Record fresh_block (s : gc) (a : Z) (t : tag) (sz : Z) (s' : gc) : Prop := {
  n_wf : exists ts', wf s' ts';
  n_unm : unmarked s';
  n_new : lookup (mem s') a = Some (mkblock false t sz (zero_obj t));
  n_old : forall x, x <> a -> lookup (mem s') x = lookup (mem s) x;
  n_free : forall k x, In x (free s' k) -> In x (free s k) /\ x <> a;
  n_keep : forall k x, In x (free s k) -> x <> a -> In x (free s' k);
  n_was : lookup (mem s) a = None \/ exists k, In a (free s k);
  n_lo : heap_lo s' <= heap_lo s; n_hi : heap_hi s <= heap_hi s'
}.

Lemma bump_fresh os page s ts t sz a s3 :
  page_size page -> fresh_mapping page s os -> wf s ts -> unmarked s ->
  block_ok (mkblock false t sz (zero_obj t)) ->
  bump_allocate os page (16 + sz) s = Ok (a, s3) ->
  fresh_block s a t sz (install a t sz s3).
Proof.
  intros PG FM W U BK H.
  destruct BK as [B1 [B2 B3]]. cbn [bsize] in B1, B2, B3.
  assert (TL : Z.land (16 + sz) 15 = 0).
  { rewrite land15, Z.add_mod, B2 by lia. reflexivity. }
  destruct (Forall2_app_inv _ _ _ _ (w_tiles _ _ W)) as [t0 [l [Ets [TF TC]]]].
  destruct (w_seg _ _ W (cur s)) as [S1 [S2 [S3 [S4 S5]]]]; [unfold all_segs; rewrite in_app_iff; right; left; reflexivity|].
  assert (BA : Z.land (sbump (cur s)) 15 = 0).
  { rewrite land15. apply (tiling_end (mem s) l (sstart (cur s))); [exact (w_blk _ _ W) | exact S2 | exact TC]. }
  assert (SZM : sz mod 2 ^ 32 = sz) by (apply Z.mod_small; lia).
  remember (16 + sz) as tot eqn:ET.
  unfold bump_allocate in H. cbv zeta in H. rewrite TL, BA in H. cbn [Z.eqb] in H.
  destruct (sbump (cur s) + tot >? sstart (cur s) + ssize (cur s)) eqn:E.
  - (* grow *)
    set (grow := round_up (if tot >? GROWTH_SIZE then tot else GROWTH_SIZE) page) in *.
    destruct (os grow) as [st|] eqn:OS; [|discriminate].
    destruct (Nat.leb MAX_SEGMENTS (S (length (segs s)))); [discriminate|].
    injection H as <- <-.
    destruct (FM _ _ OS) as [F1 [F2 F3]].
    pose proof (mod16_page st page PG F2) as F4.
    assert (GR : tot <= grow).
    { unfold grow. destruct PG as [PG1 _].
      destruct (tot >? GROWTH_SIZE) eqn:G.
      - apply (round_up_facts tot page); lia.
      - rewrite Z.gtb_ltb in G. apply Z.ltb_ge in G.
        assert (0 <= GROWTH_SIZE) by (unfold GROWTH_SIZE; lia).
        pose proof (round_up_facts GROWTH_SIZE page). lia. }
    assert (NH : lookup (mem s) st = None).
    { destruct (lookup (mem s) st) as [b|] eqn:L; [|reflexivity]. exfalso.
      destruct (header_place s ts W st b L) as [g [l' [Ig [_ [_ [_ [_ [P1 P2]]]]]]]].
      destruct (w_blk _ _ W _ _ L) as [K _]. destruct (w_seg _ _ W g Ig) as [_ [_ [K2 _]]].
      destruct (F3 g Ig); lia. }
    unfold install. rewrite SZM.
    constructor.
    + exists (ts ++ [[st]]).
      assert (LK : forall x c, lookup (store (mem s) st (mkblock false t sz (zero_obj t))) x = Some c ->
                (x = st /\ c = mkblock false t sz (zero_obj t)) \/ (x <> st /\ lookup (mem s) x = Some c)).
      { intros x c. rewrite lookup_store. destruct (Z.eq_dec x st) as [-> | NE]; [|auto].
        intros EE. injection EE as <-. auto. }
      assert (NI : ~ In st (concat ts)).
      { intros I. destruct (tiles_hdr s ts st W I) as [b L]. congruence. }
      constructor; cbn [mem segs cur heap_lo heap_hi free with_mem]; unfold all_segs;
        cbn [segs cur with_mem]; fold (all_segs s).
      * apply Forall2_app.
        -- assert (T2 : forall gs ls, ~ In st (concat ls) ->
              Forall2 (fun g l => tiling (mem s) (sstart g) (sbump g) l) gs ls ->
              Forall2 (fun g l => tiling (store (mem s) st (mkblock false t sz (zero_obj t))) (sstart g) (sbump g) l) gs ls).
           { intros gs ls N FF. induction FF as [|g l0 gr lr H1 H2 IH]; constructor.
             - apply tiling_store; [|exact H1]. intros I. apply N. cbn. apply in_app_iff. auto.
             - apply IH. intros I. apply N. cbn. apply in_app_iff. auto. }
           apply T2; [exact NI | exact (w_tiles _ _ W)].
        -- constructor; [|constructor]. cbn [sstart sbump tiling]. split; [reflexivity|].
           eexists. split; [apply lookup_store_eq|]. cbn [bsize]. rewrite ET. reflexivity.
      * intros x c EL. rewrite concat_app, in_app_iff. destruct (LK x c EL) as [[-> _] | [_ EL']].
        -- right. left. reflexivity.
        -- left. exact (w_dom _ _ W _ _ EL').
      * intros g I. apply in_app_iff in I. destruct I as [I | [<- | []]].
        -- destruct (w_seg _ _ W g I) as [A1 [A2 [A3 [A4 A5]]]]. repeat split; auto; lia.
        -- cbn [sstart ssize sbump]. split; [exact F1|]. split; [exact F4|]. clearbody grow. lia.
      * apply FOP_app_last. split; [exact (w_disj _ _ W)|]. apply Forall_forall. intros g I.
        cbn [sstart ssize]. unfold disjoint. destruct (F3 g I); [right | left]; lia.
      * intros x c EL. destruct (LK x c EL) as [[_ ->] | [_ EL']]; [repeat split; cbn; auto; lia|].
        exact (w_blk _ _ W _ _ EL').
      * intros x c EL. destruct (LK x c EL) as [[_ ->] | [_ EL']]; [cbn; symmetry; apply zero_tag|].
        exact (w_tag _ _ W _ _ EL').
      * intros k x I. destruct (w_free _ _ W _ _ I) as [b [Lb Eb]]. exists b. split; [|exact Eb].
        rewrite lookup_store_ne; [exact Lb|]. intros ->. congruence.
      * exact (w_nodup _ _ W).
      * destruct (Z.max_spec (heap_hi s) (st + grow)) as [[M1 M2] | [M1 M2]]; rewrite M2.
        -- exists (mkseg st grow (st + tot)). split; [apply in_app_iff; right; left; reflexivity|].
           cbn. split; [reflexivity | lia].
        -- destruct (w_hi _ _ W) as [g [Ig G]]. exists g. split; [apply in_app_iff; left; exact Ig | exact G].
    + intros x c. cbn [mem with_mem]. rewrite lookup_store. destruct (Z.eq_dec x st) as [-> | NE].
      * intros EE. injection EE as <-. reflexivity.
      * apply U.
    + cbn [mem with_mem]. apply lookup_store_eq.
    + intros x NE. cbn [mem with_mem]. rewrite lookup_store_ne by exact NE. reflexivity.
    + intros k x I. cbn [free with_mem] in I. split; [exact I|]. intros ->.
      destruct (w_free _ _ W _ _ I) as [b [Lb _]]. congruence.
    + intros k x I _. exact I.
    + left. exact NH.
    + cbn. lia.
    + cbn. lia.
  - (* bump *)
    rewrite Z.gtb_ltb in E. apply Z.ltb_ge in E.
    injection H as <- <-. set (a := sbump (cur s)) in *.
    assert (NH : lookup (mem s) a = None).
    { destruct (lookup (mem s) a) as [b|] eqn:L; [|reflexivity]. exfalso.
      destruct (header_place s ts W a b L) as [g [l' [Ig [_ [_ [_ [_ [P1 P2]]]]]]]].
      destruct (w_blk _ _ W _ _ L) as [K _]. destruct (w_seg _ _ W g Ig) as [_ [_ [K2 _]]].
      destruct (ForallOrdPairs_In (w_disj _ _ W) g (cur s) Ig) as [EQ | [D | D]].
      - unfold all_segs. rewrite in_app_iff. right. left. reflexivity.
      - subst g. fold a in P2. lia.
      - unfold disjoint in D. pose proof (tiling_le _ _ _ _ (w_blk _ _ W) TC) as TLE. fold a in TLE. lia.
      - unfold disjoint in D. pose proof (tiling_le _ _ _ _ (w_blk _ _ W) TC) as TLE. fold a in TLE. lia. }
    unfold install. rewrite SZM.
    constructor.
    + exists (t0 ++ [l ++ [a]]).
      assert (LK : forall x c, lookup (store (mem s) a (mkblock false t sz (zero_obj t))) x = Some c ->
                (x = a /\ c = mkblock false t sz (zero_obj t)) \/ (x <> a /\ lookup (mem s) x = Some c)).
      { intros x c. rewrite lookup_store. destruct (Z.eq_dec x a) as [-> | NE]; [|auto].
        intros EE. injection EE as <-. auto. }
      assert (NI : ~ In a (concat ts)).
      { intros I. destruct (tiles_hdr s ts a W I) as [b L]. congruence. }
      assert (NIl : ~ In a l).
      { intros I. apply NI. rewrite Ets, concat_app, in_app_iff. right. cbn. rewrite app_nil_r. exact I. }
      pose proof (w_disj _ _ W) as WD. unfold all_segs in WD. apply FOP_app_last in WD. destruct WD as [WD1 WD2].
      constructor; cbn [mem segs cur heap_lo heap_hi free with_mem]; unfold all_segs; cbn [segs cur with_mem].
      * apply Forall2_app.
        -- assert (T2 : forall gs ls, ~ In a (concat ls) ->
              Forall2 (fun g l => tiling (mem s) (sstart g) (sbump g) l) gs ls ->
              Forall2 (fun g l => tiling (store (mem s) a (mkblock false t sz (zero_obj t))) (sstart g) (sbump g) l) gs ls).
           { intros gs ls N FF. induction FF as [|g l0 gr lr H1 H2 IH]; constructor.
             - apply tiling_store; [|exact H1]. intros I. apply N. cbn. apply in_app_iff. auto.
             - apply IH. intros I. apply N. cbn. apply in_app_iff. auto. }
           apply T2; [|exact TF]. intros I. apply NI. rewrite Ets, concat_app, in_app_iff. auto.
        -- constructor; [|constructor]. cbn [sstart sbump]. rewrite ET.
           apply (tiling_snoc (store (mem s) a (mkblock false t sz (zero_obj t))) l _ a (mkblock false t sz (zero_obj t))).
           ++ apply tiling_store; [exact NIl | exact TC].
           ++ apply lookup_store_eq.
      * intros x c EL. rewrite concat_app, in_app_iff. destruct (LK x c EL) as [[-> _] | [_ EL']].
        -- right. cbn. rewrite app_nil_r. apply in_app_iff. right. left. reflexivity.
        -- pose proof (w_dom _ _ W _ _ EL') as I. rewrite Ets, concat_app, in_app_iff in I.
           destruct I as [I | I]; [auto|]. right. cbn in I |- *. rewrite app_nil_r in *. apply in_app_iff. auto.
      * intros g I. apply in_app_iff in I. destruct I as [I | [<- | []]].
        -- apply (w_seg _ _ W g). unfold all_segs. apply in_app_iff. auto.
        -- cbn [sstart ssize sbump]. repeat split; auto; lia.
      * apply FOP_app_last. split; [exact WD1 | exact WD2].
      * intros x c EL. destruct (LK x c EL) as [[_ ->] | [_ EL']]; [repeat split; cbn; auto; lia|].
        exact (w_blk _ _ W _ _ EL').
      * intros x c EL. destruct (LK x c EL) as [[_ ->] | [_ EL']]; [cbn; symmetry; apply zero_tag|].
        exact (w_tag _ _ W _ _ EL').
      * intros k x I. destruct (w_free _ _ W _ _ I) as [b [Lb Eb]]. exists b. split; [|exact Eb].
        rewrite lookup_store_ne; [exact Lb|]. intros ->. congruence.
      * exact (w_nodup _ _ W).
      * destruct (w_hi _ _ W) as [g [Ig G]]. unfold all_segs in Ig. apply in_app_iff in Ig.
        destruct Ig as [Ig | [<- | []]].
        -- exists g. split; [apply in_app_iff; left; exact Ig | exact G].
        -- exists (mkseg (sstart (cur s)) (ssize (cur s)) (a + tot)).
           split; [apply in_app_iff; right; left; reflexivity | exact G].
    + intros x c. cbn [mem with_mem]. rewrite lookup_store. destruct (Z.eq_dec x a) as [-> | NE].
      * intros EE. injection EE as <-. reflexivity.
      * apply U.
    + cbn [mem with_mem]. apply lookup_store_eq.
    + intros x NE. cbn [mem with_mem]. rewrite lookup_store_ne by exact NE. reflexivity.
    + intros k x I. cbn [free with_mem] in I. split; [exact I|]. intros ->.
      destruct (w_free _ _ W _ _ I) as [b [Lb _]]. congruence.
    + intros k x I _. exact I.
    + left. exact NH.
    + cbn. lia.
    + cbn. lia.
Qed.

(** taking a block off its free list *)
Lemma reuse_fresh s ts a b t k rest : wf s ts -> unmarked s -> lookup (mem s) a = Some b ->
  (forall x, In x (free s k) <-> x = a \/ In x rest) -> ~ In a rest -> NoDup rest -> In a (free s k) ->
  fresh_block s a t (bsize b) (install a t (bsize b) (with_free s (set_free (free s) k rest))).
Proof.
  intros W U L FR NI ND IA.
  destruct (w_blk _ _ W _ _ L) as [B1 _].
  unfold install. replace (bsize b mod 2 ^ 32) with (bsize b) by (symmetry; apply Z.mod_small; lia).
  cbn [mem with_free].
  assert (KA : forall k', In a (free s k') -> k' = k).
  { intros k' I. destruct (w_free _ _ W _ _ I) as [b1 [L1 E1]]. destruct (w_free _ _ W _ _ IA) as [b2 [L2 E2]]. congruence. }
  constructor; cbn [mem free with_mem with_free heap_lo heap_hi].
  - exists ts. apply (wf_reuse s ts a b t (zero_obj t) (set_free (free s) k rest) W L (zero_tag t)).
    + intros k' x I. unfold set_free in I. destruct (Nat.eqb k' k) eqn:E; [|exact I].
      apply Nat.eqb_eq in E. subst k'. apply FR. auto.
    + intros k'. unfold set_free. destruct (Nat.eqb k' k); [exact ND | exact (w_nodup _ _ W k')].
  - intros x c. cbn [mem with_mem with_free]. rewrite lookup_store. destruct (Z.eq_dec x a) as [-> | NE].
    + intros EE. injection EE as <-. reflexivity.
    + apply U.
  - apply lookup_store_eq.
  - intros x NE. apply lookup_store_ne. exact NE.
  - intros k' x I. unfold set_free in I. destruct (Nat.eqb k' k) eqn:E.
    + apply Nat.eqb_eq in E. subst k'. split; [apply FR; auto | intros ->; contradiction].
    + apply Nat.eqb_neq in E. split; [exact I|]. intros ->. apply E. apply KA. exact I.
  - intros k' x I NE. unfold set_free. destruct (Nat.eqb k' k) eqn:E; [|exact I].
    apply Nat.eqb_eq in E. subst k'. apply FR in I. destruct I as [-> | I]; [contradiction | exact I].
  - right. exists k. exact IA.
  - lia.
  - lia.
Qed.

Lemma first_fit_spec m n : forall l a rest, first_fit m n l = Some (a, rest) ->
  (exists b, lookup m a = Some b /\ n <= bsize b) /\
  (forall x, In x l <-> x = a \/ In x rest) /\ (NoDup l -> ~ In a rest /\ NoDup rest) /\ In a l.
Proof.
  induction l as [|y r IH]; intros a rest H; cbn [first_fit] in H; [discriminate|].
  destruct (lookup m y) as [b|] eqn:L; [|discriminate].
  destruct (n <=? bsize b) eqn:E.
  - injection H as <- <-. apply Z.leb_le in E. split; [eauto|]. split; [|split].
    + intros x. cbn. intuition congruence.
    + intros ND. inversion ND; subst. auto.
    + left. reflexivity.
  - destruct (first_fit m n r) as [[x r']|] eqn:F; [|discriminate]. injection H as <- <-.
    destruct (IH x r' eq_refl) as [A [B [C D]]]. split; [exact A|]. split; [|split].
    + intros z. cbn. rewrite B. intuition.
    + intros ND. inversion ND as [|? ? NI ND']; subst. destruct (C ND') as [C1 C2].
      assert (NE : y <> x) by (intros ->; contradiction).
      split.
      * cbn. intros [Q | Q]; [congruence | contradiction].
      * constructor; [|exact C2]. intros I. apply NI. apply B. auto.
    + right. exact D.
Qed.

(** the part of gc_alloc after the possible collection *)
Definition alloc_core (os : Z -> option Z) (page : Z) (t : tag) (size : Z) (s2 : gc) : res (Z * gc) :=
  let k := size_to_bucket size in
  if Nat.ltb k NUM_FIXED_BUCKETS
  then
    match free s2 k with
    | a :: rest => Ok (a + HEADER, install a t (class_size k) (with_free s2 (set_free (free s2) k rest)))
    | [] => do '(a, s3) <- bump_allocate os page (16 + class_size k) s2;
            Ok (a + HEADER, install a t (class_size k) s3)
    end
  else
    match first_fit (mem s2) size (free s2 LARGE_BUCKET) with
    | Some (a, rest) =>
        let s3 := with_free s2 (set_free (free s2) LARGE_BUCKET rest) in
        match lookup (mem s3) a with
        | Some b => Ok (a + HEADER, install a t (bsize b) s3)
        | None => UB
        end
    | None => do '(a, s3) <- bump_allocate os page (16 + size) s2;
              Ok (a + HEADER, install a t size s3)
    end.
Definition charge (n : Z) (s1 : gc) : gc :=
  mkgc (mem s1) (segs s1) (cur s1) (heap_lo s1) (heap_hi s1) (free s1)
              (since s1 + (16 + n)) (live_bytes s1) (threshold s1).
Lemma gc_alloc_core os page r t size s : gc_alloc os page r t size s =
  do s1 <- (if threshold s <=? since s then run_gc r s else Ok s);
  alloc_core os page t size (charge size s1).
Proof. reflexivity. Qed.
Lemma charge_wf n s ts : wf s ts -> wf (charge n s) ts.
Proof. intros []. constructor; assumption. Qed.

Lemma alloc_core_spec os page t size s ts p s' :
  page_size page -> fresh_mapping page s os -> good_size size -> wf s ts -> unmarked s ->
  alloc_core os page t size s = Ok (p, s') ->
  exists sz, size <= sz /\ fresh_block s (p - 16) t sz s' /\ p mod 16 = 0 /\
    size_to_bucket sz = size_to_bucket size.
Proof.
  intros PG FM [G1 G2] W U H. unfold alloc_core in H. cbv zeta in H.
  assert (AL : forall a sz s'', fresh_block s a t sz s'' -> (a + 16) mod 16 = 0).
  { intros a sz s'' FB. destruct (n_wf _ _ _ _ _ FB) as [ts' W'].
    destruct (header_range s'' ts' W' a _ (n_new _ _ _ _ _ FB)) as [_ [_ [_ M]]].
    replace (a + 16) with (a + 1 * 16) by lia. rewrite Z.mod_add by lia. exact M. }
  assert (FIN : forall a sz s'', size <= sz -> size_to_bucket sz = size_to_bucket size ->
     fresh_block s a t sz s'' -> Ok (a + HEADER, s'') = Ok (p, s') ->
     exists sz, size <= sz /\ fresh_block s (p - 16) t sz s' /\ p mod 16 = 0 /\
       size_to_bucket sz = size_to_bucket size).
  { intros a sz s'' LE BU FB E. injection E as <- <-. unfold HEADER. exists sz. split; [exact LE|].
    replace (a + 16 - 16) with a by lia. split; [exact FB|]. split; [apply (AL a sz s'' FB) | exact BU]. }
  destruct (Nat.ltb (size_to_bucket size) NUM_FIXED_BUCKETS) eqn:E.
  - apply Nat.ltb_lt in E. unfold NUM_FIXED_BUCKETS in E.
    destruct (bucket_small size ltac:(lia) E) as [C1 [C2 [C3 C4]]].
    set (k := size_to_bucket size) in *.
    destruct (free s k) as [|a rest] eqn:F.
    + destruct (bump_allocate os page (16 + class_size k) s) as [[a s3]| | | |] eqn:BA; try discriminate.
      cbn [bind] in H. refine (FIN a (class_size k) _ C1 C3 _ H).
      apply (bump_fresh os page s ts t (class_size k) a s3); auto.
    + assert (IA : In a (free s k)) by (rewrite F; left; reflexivity).
      destruct (w_free _ _ W _ _ IA) as [b [Lb Eb]].
      destruct (w_blk _ _ W _ _ Lb) as [_ [_ K]].
      assert (SB : bsize b = class_size k).
      { rewrite <- Eb. symmetry. apply K. destruct (Z.le_gt_cases (bsize b) 128) as [LE | GT]; [exact LE|].
        exfalso. rewrite <- Eb in E. unfold size_to_bucket, LARGE_BUCKET in E.
        replace (bsize b <=? 16) with false in E by (symmetry; apply Z.leb_gt; lia).
        replace (bsize b <=? 32) with false in E by (symmetry; apply Z.leb_gt; lia).
        replace (bsize b <=? 64) with false in E by (symmetry; apply Z.leb_gt; lia).
        replace (bsize b <=? 128) with false in E by (symmetry; apply Z.leb_gt; lia). lia. }
      rewrite <- SB in H. refine (FIN a (bsize b) _ ltac:(lia) Eb _ H).
      pose proof (w_nodup _ _ W k) as ND. rewrite F in ND. inversion ND as [|? ? NI ND']; subst.
      apply (reuse_fresh s ts a b t k rest); auto.
      intros x. rewrite F. cbn. intuition congruence.
  - apply Nat.ltb_ge in E. unfold NUM_FIXED_BUCKETS in E. pose proof (bucket_le size).
    assert (LG : 128 < size) by (apply bucket_large; lia).
    assert (BL : forall n, size <= n -> size_to_bucket n = size_to_bucket size).
    { intros n Hn. unfold size_to_bucket.
      repeat match goal with |- context [?x <=? ?y] =>
        replace (x <=? y) with false by (symmetry; apply Z.leb_gt; lia) end. reflexivity. }
    destruct (first_fit (mem s) size (free s LARGE_BUCKET)) as [[a rest]|] eqn:FF.
    + destruct (first_fit_spec _ _ _ _ _ FF) as [[b [Lb LE]] [FR [ND IA]]].
      cbn [mem with_free] in H. rewrite Lb in H.
      refine (FIN a (bsize b) _ LE (BL _ LE) _ H).
      destruct (ND (w_nodup _ _ W _)) as [NI ND'].
      apply (reuse_fresh s ts a b t LARGE_BUCKET rest); auto.
    + destruct (bump_allocate os page (16 + size) s) as [[a s3]| | | |] eqn:BA; try discriminate.
      cbn [bind] in H. refine (FIN a size _ ltac:(lia) eq_refl _ H).
      apply (bump_fresh os page s ts t size a s3); auto.
      repeat split; cbn [bsize]; try lia.
Qed.

(** * the invariant of histories *)
Record vok (s : gc) (v : view) (ever : list Z) : Prop := {
  v_nodup : NoDup (map e_ptr v);
  v_ent : forall e, In e v -> 0 <= e_size e /\ exists b, lookup (mem s) (e_ptr e - 16) = Some b
     /\ bobj b = e_obj e /\ e_size e <= bsize b /\ (forall k, ~ In (e_ptr e - 16) (free s k))
     /\ size_to_bucket (bsize b) = size_to_bucket (e_size e);
  v_ever : forall p, In p ever -> hdr s (p - 16);
  v_all : forall a, hdr s a -> In (a + 16) ever;
  v_sub : forall e, In e v -> In (e_ptr e) ever
}.

Lemma reach_creach s v ever r p : vok s v ever -> reachable v r p -> creach s r (p - 16).
Proof.
  intros V H. induction H as [e I R | e f I R IH RF J].
  - destruct (v_ent _ _ _ V e I) as [_ [b [L _]]]. apply cr_root; [|unfold hdr; congruence].
    replace (e_ptr e - 16 + 16) with (e_ptr e) by lia. exact R.
  - destruct (v_ent _ _ _ V e I) as [_ [b [L [O _]]]]. destruct (v_ent _ _ _ V f J) as [_ [c [Lc _]]].
    apply (cr_field s r (e_ptr e - 16) b); [exact IH | exact L | | unfold hdr; congruence].
    rewrite O. replace (e_ptr f - 16 + 16) with (e_ptr f) by lia. exact RF.
Qed.
Lemma within_nodup v r v' : NoDup (map e_ptr v) -> within v r v' -> NoDup (map e_ptr v').
Proof.
  intros N [N' S]. induction v' as [|e w IH]; [constructor|].
  inversion N' as [|? ? NI N2]; subst. cbn [map]. constructor.
  - intros I. apply in_map_iff in I. destruct I as [f [E J]].
    assert (e = f); [|subst; contradiction].
    assert (I1 : In e v) by (apply S; left; reflexivity).
    assert (I2 : In f v) by (apply S; right; exact J).
    clear - N E I1 I2. induction v as [|x r IH]; [destruct I1|].
    cbn [map] in N. inversion N as [|? ? NI N2]; subst.
    destruct I1 as [-> | I1], I2 as [-> | I2]; auto.
    + exfalso. apply NI. rewrite <- E. apply in_map. exact I2.
    + exfalso. apply NI. rewrite E. apply in_map. exact I1.
  - apply IH; [exact N2|]. intros f J. apply S. right. exact J.
Qed.

Lemma collect_vok s ts v ever r s' v' : wf s ts -> unmarked s -> vok s v ever -> run_gc r s = Ok s' ->
  within v r v' -> wf s' ts /\ unmarked s' /\ vok s' v' ever.
Proof.
  intros W U V H WI0. pose proof (within_nodup v r v' (v_nodup _ _ _ V) WI0) as ND. destruct WI0 as [_ WI].
  destruct (run_gc_spec s ts r s' W U H) as [W' [U' [FR [_ [HD [KEEP [_ FREE]]]]]]].
  split; [exact W'|]. split; [exact U'|]. constructor.
  - exact ND.
  - intros e I. destruct (WI e I) as [J R]. destruct (v_ent _ _ _ V e J) as [P [b [L [O [SZ [NF BU]]]]]].
    pose proof (reach_creach s v ever r _ V R) as C.
    split; [exact P|]. exists b. split; [apply KEEP; assumption|]. split; [exact O|]. split; [exact SZ|]. split; [|exact BU].
    intros k F. apply FREE in F. destruct F as [NC _]. contradiction.
  - intros p I. apply HD. exact (v_ever _ _ _ V p I).
  - intros a Ha. apply (v_all _ _ _ V). apply HD. exact Ha.
  - intros e I. destruct (WI e I) as [J _]. exact (v_sub _ _ _ V e J).
Qed.
