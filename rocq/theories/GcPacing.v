(** Accounting of the collector: what a collection counts, and how much the
    heap can grow between collections. *)
From Verif Require Import Base GcModel GcSpec GcProofs GcProofs2 GcProofs3 GcProofs4 GcProofs5 GcPacingSpec.
From Coq Require Import Lia Permutation.

(** * sums *)
Lemma sumz_app f l1 l2 : sumz f (l1 ++ l2) = sumz f l1 + sumz f l2.
Proof. induction l1 as [|a r IH]; cbn [sumz app]; lia. Qed.
Lemma sumz_ext f g l : (forall a, In a l -> f a = g a) -> sumz f l = sumz g l.
Proof.
  induction l as [|a r IH]; intros H; cbn [sumz]; [reflexivity|].
  rewrite (H a (or_introl eq_refl)), IH; [reflexivity|]. intros b I. apply H. right. exact I.
Qed.
Lemma sumz_le f g l : (forall a, In a l -> f a <= g a) -> sumz f l <= sumz g l.
Proof.
  induction l as [|a r IH]; intros H; cbn [sumz]; [lia|].
  pose proof (H a (or_introl eq_refl)). assert (sumz f r <= sumz g r) by (apply IH; intros b I; apply H; right; exact I). lia.
Qed.
Lemma sumz_perm f l1 l2 : Permutation l1 l2 -> sumz f l1 = sumz f l2.
Proof. induction 1; cbn [sumz]; lia. Qed.
Lemma sumz_same f l1 l2 : NoDup l1 -> NoDup l2 -> (forall a, In a l1 <-> In a l2) -> sumz f l1 = sumz f l2.
Proof. intros A B C. apply sumz_perm. apply NoDup_Permutation; assumption. Qed.
Lemma sumz_map f g l : sumz f (map g l) = sumz (fun a => f (g a)) l.
Proof. induction l as [|a r IH]; cbn [sumz map]; [reflexivity|]. rewrite IH. reflexivity. Qed.
Lemma sumz_filter f p l : sumz f (filter p l) = sumz (fun a => if p a then f a else 0) l.
Proof.
  induction l as [|a r IH]; cbn [sumz filter]; [reflexivity|].
  destruct (p a); cbn [sumz]; rewrite IH; lia.
Qed.
Lemma sumz_add f g l : sumz (fun a => f a + g a) l = sumz f l + sumz g l.
Proof. induction l as [|a r IH]; cbn [sumz]; [reflexivity|]. lia. Qed.
(** changing one summand *)
Lemma sumz_update f g a l : NoDup l -> In a l -> (forall x, x <> a -> f x = g x) ->
  sumz f l = sumz g l - g a + f a.
Proof.
  intros N I E. induction l as [|y r IH]; [destruct I|].
  inversion N as [|? ? NI N']; subst. cbn [sumz]. destruct I as [-> | I].
  - rewrite (sumz_ext f g r); [lia|]. intros x J. apply E. intros ->. contradiction.
  - rewrite (E y) by (intros ->; contradiction). rewrite (IH N' I). lia.
Qed.

(** * what sweep_phase counts *)
Definition ext (m : list (Z * block)) (a : Z) : Z :=
  match lookup m a with Some b => 16 + bsize b | None => 0 end.
Definition is_marked (m : list (Z * block)) (a : Z) : bool :=
  match lookup m a with Some b => bmark b | None => false end.
Lemma fold_tot : forall l c, NoDup l ->
  snd (fold_left sweep1 l c) =
  snd c + sumz (fun a => if is_marked (mem (fst c)) a then ext (mem (fst c)) a else 0) l.
Proof.
  induction l as [|y r IH]; intros c N; cbn [fold_left sumz]; [lia|].
  inversion N as [|? ? NI N']; subst. rewrite IH by exact N'.
  rewrite (sumz_ext (fun a => if is_marked (mem (fst (sweep1 c y))) a then ext (mem (fst (sweep1 c y))) a else 0)
             (fun a => if is_marked (mem (fst c)) a then ext (mem (fst c)) a else 0)).
  - assert (A : snd (sweep1 c y) = snd c + (if is_marked (mem (fst c)) y then ext (mem (fst c)) y else 0)).
    { unfold sweep1, is_marked, ext. destruct (lookup (mem (fst c)) y) as [b|] eqn:L; [|lia].
      destruct c as [s tot]. unfold sweep_block. destruct (bmark b); cbn [snd]; unfold HEADER; lia. }
    lia.
  - intros x I. unfold is_marked, ext. rewrite sweep1_lookup.
    destruct (Z.eq_dec x y) as [-> | NE]; [contradiction | reflexivity].
Qed.

Lemma sweep_total s ts s' : wf s ts -> sweep_phase s = Ok s' ->
  live_bytes s' = sumz (fun a => if is_marked (mem s) a then ext (mem s) a else 0) (concat ts) /\
  threshold s' = Z.max 2097152 (live_bytes s' * 3 / 2) /\ since s' = since s.
Proof.
  intros W E. unfold sweep_phase in E.
  set (c0 := (with_free s (fun _ => []), 0)) in *.
  assert (ND : NoDup (concat ts)).
  { apply (tiles_nodup (mem s) (all_segs s)); [exact (w_blk _ _ W) | | exact (w_disj _ _ W) | exact (w_tiles _ _ W)].
    intros g I. destruct (w_seg _ _ W g I) as [_ [A [B _]]]. auto. }
  rewrite (sweep_segs_fold (all_segs s) ts c0) in E.
  2: exact (w_tiles _ _ W). 2: exact (w_blk _ _ W).
  2: { intros x I. destruct (tiles_hdr s ts x W I) as [b L].
       unfold mapped. change (all_segs (fst c0)) with (all_segs s). exact (header_mapped s ts W x b L). }
  cbn [bind] in E.
  pose proof (fold_tot (concat ts) c0 ND) as T.
  assert (SI : forall l c, since (fst (fold_left sweep1 l c)) = since (fst c)).
  { induction l as [|y r IH]; intros c; [reflexivity|]. cbn [fold_left]. rewrite IH.
    unfold sweep1. destruct (lookup (mem (fst c)) y) as [b|]; [|reflexivity].
    destruct c as [z tot]. unfold sweep_block. destruct (bmark b); reflexivity. }
  specialize (SI (concat ts) c0).
  destruct (fold_left sweep1 (concat ts) c0) as [s1 tot] eqn:EF.
  injection E as <-. cbn [live_bytes threshold since snd fst] in *.
  change (mem (fst c0)) with (mem s) in T. change (snd c0) with 0 in T. change (since (fst c0)) with (since s) in SI.
  split; [lia|]. split; [|exact SI].
  unfold MIN_THRESHOLD. change (2 * 1024 * 1024) with 2097152.
  destruct (tot * 3 / 2 <? 2097152) eqn:Q; [apply Z.ltb_lt in Q | apply Z.ltb_ge in Q]; lia.
Qed.

Lemma wf_nodup s ts : wf s ts -> NoDup (concat ts).
Proof.
  intros W. apply (tiles_nodup (mem s) (all_segs s)); [exact (w_blk _ _ W) | | exact (w_disj _ _ W) | exact (w_tiles _ _ W)].
  intros g I. destruct (w_seg _ _ W g I) as [_ [A [B _]]]. auto.
Qed.

(** a collection: the new counters *)
Lemma run_gc_counts s ts r s' : wf s ts -> unmarked s -> run_gc r s = Ok s' ->
  exists l, NoDup l /\ (forall a, In a l <-> hdr s' a /\ forall k, ~ In a (free s' k)) /\
    live_bytes s' = sumz (ext (mem s')) l /\
    threshold s' = Z.max 2097152 (live_bytes s' * 3 / 2) /\ since s' = 0.
Proof.
  intros W U H. pose proof (run_gc_spec s ts r s' W U H) as SP.
  destruct SP as [W' [_ [_ [SI [HD [_ [SZ FREE]]]]]]].
  unfold run_gc in H.
  destruct (mark_phase r s) as [s1| | | |] eqn:E; try discriminate. cbn [bind] in H.
  destruct (mark_phase_marks s ts r s1 W U E) as [Q M].
  assert (W1 : wf s1 ts) by exact (meq_wf _ _ _ Q W).
  destruct (sweep_phase s1) as [s2| | | |] eqn:E2; try discriminate. cbn [bind] in H.
  destruct (sweep_total s1 ts s2 W1 E2) as [A [B _]].
  injection H as <-. cbn [mem free live_bytes threshold since] in *.
  exists (filter (is_marked (mem s1)) (concat ts)).
  assert (IM : forall a, is_marked (mem s1) a = true <-> creach s r a).
  { intros a. rewrite <- M. unfold is_marked, marked. destruct (lookup (mem s1) a) as [b|].
    - split; [eauto | intros [b' [X Y]]; congruence].
    - split; [discriminate | intros [b' [X _]]; discriminate]. }
  assert (DEC : forall a, creach s r a \/ ~ creach s r a) by (intros a; rewrite <- M; apply marked_dec).
  split; [apply NoDup_filter; exact (wf_nodup _ _ W)|]. split; [|split; [|split; [exact B | reflexivity]]].
  - intros a. rewrite filter_In, IM. split.
    + intros [I C]. split; [apply HD; exact (creach_hdr _ _ _ C)|]. intros k F. apply FREE in F. tauto.
    + intros [Ha NF]. split; [destruct (hdr_lookup _ _ Ha) as [b L]; cbn [mem] in L; apply (w_dom _ _ W' _ _ L)|].
      destruct (DEC a) as [C | NC]; [exact C|]. exfalso. apply HD in Ha.
      destruct (hdr_lookup _ _ Ha) as [b L]. apply (NF (size_to_bucket (bsize b))). apply FREE. eauto.
  - rewrite sumz_filter. rewrite A. apply sumz_ext. intros a I.
    destruct (is_marked (mem s1) a); [|reflexivity].
    destruct (tiles_hdr s ts a W I) as [b L]. destruct (SZ _ _ L) as [b' [L' [S' _]]].
    destruct (meq_lookup _ _ _ _ Q L) as [b1 [L1 [_ [S1 _]]]].
    unfold ext. rewrite L', L1. lia.
Qed.

(** * counters of an allocation *)
Lemma bump_counters os page n s a s' : bump_allocate os page n s = Ok (a, s') ->
  mem s' = mem s /\ free s' = free s /\ since s' = since s /\ live_bytes s' = live_bytes s /\ threshold s' = threshold s.
Proof.
  unfold bump_allocate. cbv zeta. intros H.
  destruct (_ >? _); [|injection H as <- <-; auto].
  destruct (os _); [|discriminate]. destruct (Nat.leb _ _); [discriminate|].
  injection H as <- <-. auto.
Qed.
Lemma alloc_core_counters os page t size s p s' : alloc_core os page t size s = Ok (p, s') ->
  since s' = since s /\ live_bytes s' = live_bytes s /\ threshold s' = threshold s /\
  (forall x, x <> p - 16 -> lookup (mem s') x = lookup (mem s) x).
Proof.
  unfold alloc_core. cbv zeta. intros H. unfold HEADER in H.
  assert (ST : forall a sz s3, mem s3 = mem s -> forall x, x <> a + 16 - 16 ->
            lookup (mem (install a t sz s3)) x = lookup (mem s) x).
  { intros a sz s3 E x N. unfold install. cbn [mem with_mem]. rewrite lookup_store_ne by lia. rewrite E. reflexivity. }
  destruct (Nat.ltb (size_to_bucket size) NUM_FIXED_BUCKETS).
  - destruct (free s (size_to_bucket size)) as [|a rest].
    + destruct (bump_allocate os page (16 + class_size (size_to_bucket size)) s) as [[a s3]| | | |] eqn:BA; try discriminate.
      cbn [bind] in H. injection H as <- <-. destruct (bump_counters _ _ _ _ _ _ BA) as [A [B [C [D E]]]].
      cbn [install with_mem since live_bytes threshold]. repeat (split; [assumption|]). apply ST. exact A.
    + injection H as <- <-. repeat (split; [reflexivity|]). apply ST. reflexivity.
  - destruct (first_fit (mem s) size (free s LARGE_BUCKET)) as [[a rest]|].
    + cbn [mem with_free] in H. destruct (lookup (mem s) a); [|discriminate].
      injection H as <- <-. repeat (split; [reflexivity|]). apply ST. reflexivity.
    + destruct (bump_allocate os page (16 + size) s) as [[a s3]| | | |] eqn:BA; try discriminate.
      cbn [bind] in H. injection H as <- <-. destruct (bump_counters _ _ _ _ _ _ BA) as [A [B [C [D E]]]].
      cbn [install with_mem since live_bytes threshold]. repeat (split; [assumption|]). apply ST. exact A.
Qed.
Lemma run_gc_counters r s s' : run_gc r s = Ok s' -> since s' = 0 /\ 2097152 <= threshold s'.
Proof.
  unfold run_gc. intros E. destruct (mark_phase r s) as [s1| | | |]; try discriminate. cbn [bind] in E.
  unfold sweep_phase in E. destruct (sweep_segs _ _) as [[s2 tot]| | | |]; try discriminate. cbn [bind] in E.
  injection E as <-. cbn [threshold since]. split; [reflexivity|].
  unfold MIN_THRESHOLD. change (2 * 1024 * 1024) with 2097152.
  destruct (tot * 3 / 2 <? 2097152) eqn:Q; [lia|]. apply Z.ltb_ge in Q. lia.
Qed.
