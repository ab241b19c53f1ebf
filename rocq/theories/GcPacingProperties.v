(** C210, C211: when the collector runs, and how far the heap can grow
    (src/c/gc.cc). *)
From Verif Require Import Base GcModel GcSpec GcProofs GcProofs2 GcProofs3 GcProofs4 GcProofs5 GcProperties GcWitness
  GcPacingSpec GcPacing GcPacing2.
From Coq Require Import Lia.

(** ** C210: the counters *)
(** After a collection the live count is the bytes of exactly the blocks that
    are not on a free list; the next collection is due after one and a half
    times that, but no sooner than after 2 MiB. *)
Theorem c210_counters : forall page s v ever r s',
  history page s v ever -> run_gc r s = Ok s' ->
  exists blocks, NoDup blocks /\
    (forall p, In p blocks <-> In p ever /\ ~ on_free_list s' p) /\
    live_bytes s' = sumz (footprint s') blocks /\
    threshold s' = Z.max 2097152 (live_bytes s' * 3 / 2) /\ since s' = 0.
Proof.
  intros page s v ever r s' H E. destruct (history_inv _ _ _ _ H) as [_ [ts [W [U V]]]].
  destruct (run_gc_counts s ts r s' W U E) as [l [ND [I [LV [TH SI]]]]].
  destruct (run_gc_spec s ts r s' W U E) as [W' [_ [_ [_ [HD [_ [_ FREE]]]]]]].
  exists (map (fun a => a + 16) l). split; [|split; [|split; [|split; [exact TH | exact SI]]]].
  - clear - ND. induction ND as [|a r NI ND IH]; cbn [map]; constructor; [|exact IH].
    intros J. apply in_map_iff in J. destruct J as [b [Eb J]]. replace b with a in J by lia. contradiction.
  - intros p. rewrite in_map_iff. split.
    + intros [a [<- J]]. apply I in J. destruct J as [Ha NF]. split.
      * apply (v_all _ _ _ V). apply HD. exact Ha.
      * intros [k [_ F]]. unfold HEADER in F. replace (a + 16 - 16) with a in F by lia. exact (NF k F).
    + intros [J NF]. exists (p - 16). split; [lia|]. apply I. split; [apply HD; exact (v_ever _ _ _ V p J)|].
      intros k F. apply NF. exists k. unfold HEADER. split; [|exact F].
      apply FREE in F. destruct F as [_ [b [_ <-]]]. pose proof (bucket_le (bsize b)). unfold NUM_BUCKETS. lia.
  - rewrite LV, sumz_map. apply sumz_ext. intros a _. unfold ext, footprint.
    replace (a + 16 - 16) with a by lia. reflexivity.
Qed.
(** ... which for a program without stale pointers are the reachable ones *)
Theorem c210_counts_the_reachable : forall page s v ever r s',
  history page s v ever -> tame_roots s v r -> tame_view s v -> run_gc r s = Ok s' ->
  exists blocks, NoDup blocks /\
    (forall p, In p blocks <-> In p ever /\ reachable v r p) /\
    live_bytes s' = sumz (footprint s') blocks.
Proof.
  intros page s v ever r s' H TR TV E. destruct (c210_counters page s v ever r s' H E) as [bl [ND [I [LV _]]]].
  exists bl. split; [exact ND|]. split; [|exact LV]. intros p. rewrite I.
  split; intros [J X]; (split; [exact J|]).
  - destruct (history_inv _ _ _ _ H) as [_ [ts [W [U V]]]].
    destruct (run_gc_spec s ts r s' W U E) as [_ [_ [_ [_ [_ [_ [_ FREE]]]]]]].
    assert (C : creach s r (p - 16)).
    { assert (DEC : creach s r (p - 16) \/ ~ creach s r (p - 16)).
      { unfold run_gc in E. destruct (mark_phase r s) as [s1| | | |] eqn:E1; try discriminate.
        destruct (mark_phase_marks s ts r s1 W U E1) as [_ M]. rewrite <- M. apply marked_dec. }
      destruct DEC as [C | NC]; [exact C|]. exfalso. apply X.
      destruct (hdr_lookup _ _ (v_ever _ _ _ V p J)) as [b L].
      exists (size_to_bucket (bsize b)). split; [pose proof (bucket_le (bsize b)); unfold NUM_BUCKETS; lia|].
      unfold HEADER. apply FREE. eauto. }
    destruct (creach_reach s ts v ever r _ W V TR TV C) as [R _]. replace (p - 16 + 16) with p in R by lia. exact R.
  - intros F. exact (proj1 (c51_exactly_unreachable page s v ever r s' p H TR TV E J) F X).
Qed.
(** two of the three objects of the witness program survive: a vector (16 + 16
    bytes) and a list cell (16 + 32) *)
Example c210_counters_meets :
  live_bytes w6 = 80 /\ threshold w6 = 2097152 /\
  exists blocks, NoDup blocks /\ (forall p, In p blocks <-> In p [str; vect; cell] /\ reachable v5 r5 p) /\
    live_bytes w6 = sumz (footprint w6) blocks.
Proof.
  split; [vm_compute; reflexivity|]. split; [vm_compute; reflexivity|].
  destruct r5_tame as [TR [TV SA]].
  exact (c210_counts_the_reachable page w5 v5 [str; vect; cell] r5 w6 w5_history TR TV w6_run).
Qed.

(** An allocation collects exactly when the bytes requested since the last
    collection have reached the threshold.  Below it, it only counts the
    request: no other block is touched, none is freed or marked. *)
Theorem c210_quiet : forall os page r t size s p s',
  since s < threshold s -> gc_alloc os page r t size s = Ok (p, s') ->
  since s' = since s + (16 + size) /\ threshold s' = threshold s /\ live_bytes s' = live_bytes s /\
  forall q, q <> p -> lookup (mem s') (q - 16) = lookup (mem s) (q - 16).
Proof.
  intros os page r t size s p s' Q H. rewrite gc_alloc_core in H.
  replace (threshold s <=? since s) with false in H by (symmetry; apply Z.leb_gt; lia). cbn [bind] in H.
  destruct (alloc_core_counters _ _ _ _ _ _ _ H) as [A [B [C D]]]. cbn [charge since live_bytes threshold mem] in *.
  repeat (split; [assumption|]). intros q N. apply D. lia.
Qed.
Example c210_quiet_meets : lookup (mem w3) (cell - 16) = lookup (mem w2) (cell - 16) /\ since w3 = since w2 + 32.
Proof.
  destruct (c210_quiet no_os page (on_stack [cell; vect]) GC_STRING 16 w2 str w3) as [A [_ [_ B]]];
    [vm_compute; reflexivity | vm_compute; reflexivity|].
  split; [apply B; discriminate | exact A].
Qed.
(** At the threshold it is a collection followed by an allocation. *)
Theorem c210_due : forall os page r t size s,
  threshold s <= since s ->
  gc_alloc os page r t size s = (do s1 <- run_gc r s; gc_alloc os page r t size s1).
Proof.
  intros os page r t size s Q. rewrite gc_alloc_core.
  replace (threshold s <=? since s) with true by (symmetry; apply Z.leb_le; lia).
  destruct (run_gc r s) as [s1| | | |] eqn:E; try reflexivity. cbn [bind]. rewrite gc_alloc_core.
  destruct (run_gc_counters r s s1 E) as [SI TH].
  replace (threshold s1 <=? since s1) with false by (symmetry; apply Z.leb_gt; lia). reflexivity.
Qed.
Definition due5 : gc :=
  mkgc (mem w5) (segs w5) (cur w5) (heap_lo w5) (heap_hi w5) (free w5) (threshold w5) (live_bytes w5) (threshold w5).
Example c210_due_meets : exists s1 p s2,
  run_gc r5 due5 = Ok s1 /\ gc_alloc no_os page r5 GC_SYMBOL 16 due5 = Ok (p, s2) /\ p = str /\ since s2 = 32.
Proof.
  eexists. eexists. eexists. split; [vm_compute; reflexivity|].
  rewrite c210_due by (cbn [due5 since threshold]; lia).
  split; [vm_compute; reflexivity|]. split; vm_compute; reflexivity.
Qed.

(** Collections are paid for: the allocator starts at most one for every 2 MiB
    requested.  And they are not put off: between allocations the bytes
    requested since the last one exceed the threshold by less than one block. *)
Theorem c210_pace : forall page s n c, paced page s n c -> c * 2097152 <= n.
Proof.
  intros page s n c H.
  assert (X : c * 2097152 + since s <= n /\ 0 <= since s /\ 2097152 <= threshold s); [|lia].
  induction H as [st | s n c os r t size p s' H IH G Q E | s n c os r t size p s' H IH G Q E
                 | s n c p o s' H IH E | s n c r s' H IH E].
  - cbn [gc_init since threshold]. change (INITIAL_HEAP_SIZE / 2) with 4194304. lia.
  - destruct (c210_quiet os page r t size s p s' Q E) as [A [B _]]. lia.
  - rewrite (c210_due os page r t size s Q) in E. destruct (run_gc r s) as [s1| | | |] eqn:E1; try discriminate.
    cbn [bind] in E. destruct (run_gc_counters r s s1 E1) as [SI TH].
    destruct (c210_quiet os page r t size s1 p s' ltac:(lia) E) as [A [B _]]. lia.
  - unfold write_obj in E. destruct (lookup (mem s) (p - HEADER)); [|discriminate]. injection E as <-. exact IH.
  - destruct (run_gc_counters r s s' E) as [SI TH]. lia.
Qed.
Theorem c210_not_put_off : forall os page r t size s p s',
  gc_alloc os page r t size s = Ok (p, s') -> 0 <= size -> since s' < threshold s' + (16 + size).
Proof.
  intros os page r t size s p s' E G.
  destruct (Z.lt_ge_cases (since s) (threshold s)) as [Q | Q].
  - destruct (c210_quiet os page r t size s p s' Q E) as [A [B _]]. lia.
  - rewrite (c210_due os page r t size s) in E by lia. destruct (run_gc r s) as [s1| | | |] eqn:E1; try discriminate.
    cbn [bind] in E. destruct (run_gc_counters r s s1 E1) as [SI TH].
    destruct (c210_quiet os page r t size s1 p s' ltac:(lia) E) as [A [B _]]. lia.
Qed.
Example c210_pace_meets : exists s, paced page s 104 0 /\ since s = 104.
Proof.
  exists w3. split; [|vm_compute; reflexivity].
  apply (pc_quiet page w2 72 0 no_os (on_stack [cell; vect]) GC_STRING 16 str w3); [|lia|vm_compute; reflexivity|vm_compute; reflexivity].
  apply (pc_quiet page w1 40 0 no_os (on_stack [cell]) GC_VECTOR 16 vect w2); [|lia|vm_compute; reflexivity|vm_compute; reflexivity].
  apply (pc_quiet page w0 0 0 no_os (on_stack []) GC_LIST 24 cell w1); [|lia|vm_compute; reflexivity|vm_compute; reflexivity].
  apply pc_init.
Qed.

(** ** C211: bounded live data, bounded heap *)
(** However long a program runs and however much it allocates: if what survives
    each collection is at most [limit] bytes, the segments the heap ever maps
    are bounded in number by [limit] alone, and in size. *)
Theorem c211_heap_bounded : forall page limit s v ever,
  0 <= limit -> frugal page limit s v ever ->
  2 * (Z.of_nat (length (all_segs s) - 1) * 4194017)
    <= 5 * (2 * limit + 3 * (Z.max 4194304 (limit * 3 / 2) + 272)) /\
  forall g, In g (all_segs s) -> ssize g < 8388608 + page.
Proof.
  intros page limit s v ever LN H. destruct (heap_bound page limit s v ever LN H) as [A B].
  split; [|exact B]. unfold all_segs at 1. rewrite app_length. cbn [length].
  replace (length (segs s) + 1 - 1)%nat with (length (segs s)) by lia. exact A.
Qed.
(** So with up to 15 MiB of live data the collector's table of 64 segments is
    never full, and with up to 1 MiB the heap never has more than 9. *)
Theorem c211_segments_suffice : forall page s v ever,
  frugal page 15728640 s v ever -> (length (all_segs s) < 64)%nat.
Proof.
  intros page s v ever H. destruct (c211_heap_bounded page 15728640 s v ever ltac:(lia) H) as [A _].
  change (15728640 * 3 / 2) with 23592960 in A. lia.
Qed.
Theorem c211_one_mebibyte : forall page s v ever,
  frugal page 1048576 s v ever -> (length (all_segs s) <= 9)%nat.
Proof.
  intros page s v ever H. destruct (c211_heap_bounded page 1048576 s v ever ltac:(lia) H) as [A _].
  change (1048576 * 3 / 2) with 1572864 in A. lia.
Qed.
(** ... and every allocation succeeds as long as the operating system does its part. *)
Theorem c211_never_out_of_segments : forall page s v ever os r t,
  frugal page 15728640 s v ever -> tame_roots s v r -> tame_view s v ->
  (forall e, In e v -> sound_arrays (e_obj e)) -> (forall n, exists st, os n = Some st) ->
  exists p s', gc_alloc os page r t (sizeof t) s = Ok (p, s').
Proof.
  intros page s v ever os r t H TR TV SA OS.
  apply (c52_allocation_completes page s v ever os r t (sizeof t)); auto.
  - exact (frugal_history _ _ _ _ _ H).
  - exact (c211_segments_suffice page s v ever H).
Qed.
Lemma w5_frugal limit : 0 <= limit -> frugal page limit w5 v5 [str; vect; cell].
Proof.
  intros L.
  assert (F1 : frugal page limit w1 [mkentry cell 24 (SList 0 0 false)] [cell]).
  { apply (fr_alloc page limit w0 [] [] no_os (on_stack []) GC_LIST cell w1 []).
    - apply fr_init; [exact page_ok | lia | reflexivity].
    - apply no_os_fresh.
    - vm_compute. reflexivity.
    - split; [constructor | intros e []].
    - replace (live_bytes w1) with 0 by (vm_compute; reflexivity). exact L. }
  assert (F2 : frugal page limit w2 [mkentry vect 16 (SVector None 0); mkentry cell 24 (SList 0 0 false)] [vect; cell]).
  { apply (fr_alloc page limit w1 [mkentry cell 24 (SList 0 0 false)] [cell] no_os (on_stack [cell]) GC_VECTOR vect w2
            [mkentry cell 24 (SList 0 0 false)] F1).
    - apply no_os_fresh.
    - vm_compute. reflexivity.
    - split; [repeat constructor; intros []|]. intros e [<- | []]. split; [left; reflexivity|].
      apply (reach_root _ _ (mkentry cell 24 (SList 0 0 false))); [left; reflexivity|].
      right. right. right. exists [cell]. cbn. auto.
    - replace (live_bytes w2) with 0 by (vm_compute; reflexivity). exact L. }
  assert (F3 : frugal page limit w3 [mkentry str 16 SString; mkentry cell 24 (SList 0 0 false); mkentry vect 16 (SVector None 0)]
            [str; vect; cell]).
  { apply (fr_alloc page limit w2 _ [vect; cell] no_os (on_stack [cell; vect]) GC_STRING str w3
            [mkentry cell 24 (SList 0 0 false); mkentry vect 16 (SVector None 0)] F2).
    - apply no_os_fresh.
    - vm_compute. reflexivity.
    - split.
      + constructor; [cbn; intros [E | []]; discriminate | repeat constructor; intros []].
      + intros e [<- | [<- | []]].
        * split; [right; left; reflexivity|].
          apply (reach_root _ _ (mkentry cell 24 (SList 0 0 false))); [right; left; reflexivity|].
          right. right. right. exists [cell; vect]. cbn. auto.
        * split; [left; reflexivity|].
          apply (reach_root _ _ (mkentry vect 16 (SVector None 0))); [left; reflexivity|].
          right. right. right. exists [cell; vect]. cbn. auto.
    - replace (live_bytes w3) with 0 by (vm_compute; reflexivity). exact L. }
  apply (fr_write page limit w4 [mkentry str 16 SString; mkentry cell 24 o_cell; mkentry vect 16 (SVector None 0)] _
           [mkentry str 16 SString; mkentry cell 24 o_cell] (mkentry vect 16 (SVector None 0)) [] o_vect w5);
    [|reflexivity|reflexivity|vm_compute; reflexivity].
  apply (fr_write page limit w3 [mkentry str 16 SString; mkentry cell 24 (SList 0 0 false); mkentry vect 16 (SVector None 0)]
             _ [mkentry str 16 SString] (mkentry cell 24 (SList 0 0 false)) [mkentry vect 16 (SVector None 0)] o_cell w4);
    [exact F3|reflexivity|reflexivity|vm_compute; reflexivity].
Qed.
(** the witness program with a collection that keeps 80 bytes *)
Example c211_meets :
  frugal page 80 w6 [mkentry cell 24 o_cell; mkentry vect 16 o_vect] [str; vect; cell] /\
  ~ frugal page 79 w6 [mkentry cell 24 o_cell; mkentry vect 16 o_vect] [str; vect; cell] /\
  (length (all_segs w6) <= 9)%nat.
Proof.
  assert (F : forall limit, 80 <= limit -> frugal page limit w6 [mkentry cell 24 o_cell; mkentry vect 16 o_vect] [str; vect; cell]).
  { intros limit L. apply (fr_collect page limit w5 v5 _ r5 w6).
    - apply w5_frugal. lia.
    - exact w6_run.
    - split.
      + constructor; [cbn; intros [E | []]; discriminate | repeat constructor; intros []].
      + intros e [<- | [<- | []]].
        * split; [right; left; reflexivity | exact r5_cell].
        * split; [right; right; left; reflexivity | exact r5_vect].
    - replace (live_bytes w6) with 80 by (vm_compute; reflexivity). exact L. }
  split; [apply F; lia|]. split.
  - intros X. destruct (frugal_acct page 79 _ _ _ ltac:(lia) X) as [l A].
    pose proof (a_live _ _ _ _ A) as B. replace (live_bytes w6) with 80 in B by (vm_compute; reflexivity). lia.
  - apply (c211_one_mebibyte page w6 _ _ (F 1048576 ltac:(lia))).
Qed.
Example c211_never_out_meets : exists p s', gc_alloc far page r5 GC_LIST 24 w5 = Ok (p, s').
Proof.
  apply (c211_never_out_of_segments page w5 v5 [str; vect; cell] far r5 GC_LIST (w5_frugal 15728640 ltac:(lia)));
    try apply r5_tame. intros n. exists 134217728. reflexivity.
Qed.
