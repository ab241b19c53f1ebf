(** C50, C51, C52: the allocator and the collector (src/c/gc.cc). *)
From Verif Require Import Base GcModel GcSpec GcProofs GcProofs2 GcProofs3 GcProofs4 GcProofs5 GcWitness.
From Coq Require Import Lia.

(** ** C50: reachable objects survive a collection *)
Theorem c50_reachable_survive : forall page s v ever r s' e,
  history page s v ever -> run_gc r s = Ok s' -> In e v -> reachable v r (e_ptr e) ->
  object_at s' (e_ptr e) = Some (e_obj e) /\ ~ on_free_list s' (e_ptr e).
Proof.
  intros page s v ever r s' e H E I R. destruct (history_inv _ _ _ _ H) as [_ [ts [W [U V]]]].
  destruct (run_gc_spec s ts r s' W U E) as [_ [_ [_ [_ [_ [KEEP [_ FREE]]]]]]].
  pose proof (reach_creach s v ever r _ V R) as C.
  destruct (v_ent _ _ _ V e I) as [_ [b [L [O _]]]]. split.
  - unfold object_at, HEADER. rewrite (KEEP _ _ C L). cbn. rewrite O. reflexivity.
  - intros [k [_ F]]. apply FREE in F. destruct F as [NC _]. contradiction.
Qed.
Example c50_reachable_survive_meets :
  object_at w6 cell = Some o_cell /\ ~ on_free_list w6 cell.
Proof.
  apply (c50_reachable_survive page w5 v5 [str; vect; cell] r5 w6 (mkentry cell 24 o_cell)).
  - exact w5_history.
  - exact w6_run.
  - right. left. reflexivity.
  - exact r5_cell.
Qed.

(** at any point of any history every object the program still has the right
    to use holds what the program last stored in it *)
Theorem c50_contents : forall page s v ever e,
  history page s v ever -> In e v -> object_at s (e_ptr e) = Some (e_obj e) /\ ~ on_free_list s (e_ptr e).
Proof.
  intros page s v ever e H I. destruct (history_inv _ _ _ _ H) as [_ [ts [W [U V]]]].
  destruct (v_ent _ _ _ V e I) as [_ [b [L [O [_ [NF _]]]]]]. split.
  - unfold object_at, HEADER. rewrite L. cbn. rewrite O. reflexivity.
  - intros [k [_ F]]. exact (NF k F).
Qed.
Example c50_contents_meets : object_at w5 vect = Some (SVector (Some [cell]) 1).
Proof.
  apply (c50_contents page w5 v5 [str; vect; cell] (mkentry vect 16 o_vect) w5_history).
  right. right. left. reflexivity.
Qed.

(** a program that keeps no stale pointers can always collect *)
Theorem c50_collection_completes : forall page s v ever r,
  history page s v ever -> tame_roots s v r -> tame_view s v ->
  (forall e, In e v -> sound_arrays (e_obj e)) -> exists s', run_gc r s = Ok s'.
Proof.
  intros page s v ever r H TR TV SA. destruct (history_inv _ _ _ _ H) as [_ [ts [W [U V]]]].
  apply (collect_ok s ts v ever r W U V TR TV SA).
Qed.
Example c50_collection_completes_meets : exists s', run_gc r5 w5 = Ok s'.
Proof.
  apply (c50_collection_completes page w5 v5 [str; vect; cell] r5 w5_history); apply r5_tame.
Qed.

(** ... but a stale word on the C stack that still points to a collected
    vector crashes it: sweep_vector nulls [elements] and leaves [length]
    (gc.cc 697-703), trace_vector then reads through the null pointer *)
Definition w7 := gc_of (run_gc (on_stack []) w5).
Lemma w7_history : history page w7 [] [str; vect; cell].
Proof.
  apply (h_collect page w5 v5 [str; vect; cell] (on_stack []) w7 []).
  - exact w5_history.
  - vm_compute. reflexivity.
  - split; [constructor | intros e []].
Qed.
Theorem c101_stale_vector_refuted : exists page s ever w,
  history page s [] ever /\ In w ever /\ run_gc (on_stack [w]) s = UB.
Proof.
  exists page, w7, [str; vect; cell], vect. split; [exact w7_history|]. split; [cbn; auto|].
  vm_compute. reflexivity.
Qed.

(** ... and so does an integer on the stack that looks like an address at the
    very bottom of the heap, or in the gap between two heap segments: the
    header is read before it is known to be mapped (gc.cc 313-330) *)
Theorem c101_heap_bottom_refuted : exists page s,
  history page s [] [] /\ run_gc (on_stack [heap_lo s]) s = UB.
Proof.
  exists page, w0. split; [apply h_init; [exact page_ok | lia | reflexivity]|]. vm_compute. reflexivity.
Qed.
Definition far (n : Z) : option Z := Some 134217728.
Definition big : Z := 8388592.
Definition g1 := st_of (gc_alloc no_os page (on_stack []) GC_STRING big w0).
Definition g2 := st_of (gc_alloc far page (on_stack []) GC_STRING 16 g1).
Theorem c101_segment_gap_refuted : exists page s v ever w,
  history page s v ever /\ ~ In w ever /\ run_gc (on_stack [w]) s = UB.
Proof.
  exists page, g2, [mkentry 134217744 16 SString], [134217744; 65552], 100000000.
  split; [|split].
  - apply (h_alloc page g1 [mkentry 65552 big SString] [65552] far (on_stack []) GC_STRING 16 134217744 g2 []).
    + apply (h_alloc page w0 [] [] no_os (on_stack []) GC_STRING big 65552 g1 []).
      * apply h_init; [exact page_ok | lia | reflexivity].
      * split; [unfold big; lia | intros; reflexivity].
      * apply no_os_fresh.
      * vm_compute. reflexivity.
      * split; [constructor | intros e []].
    + split; [lia | intros; lia].
    + intros n st E. unfold far in E. injection E as <-. split; [lia|]. split; [reflexivity|].
      intros g I. right. change (all_segs g1) with [mkseg 65536 8388608 (65536 + 8388608)] in I.
      destruct I as [<- | []]. cbn [sstart ssize]. lia.
    + vm_compute. reflexivity.
    + split; [constructor | intros e []].
  - cbn. intros [E | [E | []]]; discriminate.
  - vm_compute. reflexivity.
Qed.

(** what only a continuation's saved stack, or a smob, holds is collected *)
Definition k1 := st_of (gc_alloc no_os page (on_stack []) GC_CONT 256 w0).
Definition k2 := st_of (gc_alloc no_os page (on_stack [65552]) GC_STRING 16 k1).
Definition k3 := gc_of (write_obj k2 65552 (SCont (Some [65824]) 0 0 0)).
Definition k4 := gc_of (run_gc (on_stack [65552]) k3).
Theorem c101_saved_stack_refuted : exists page s v ever r s' k e ws,
  history page s v ever /\ In k v /\ In e v /\ root_word r (e_ptr k) /\
  e_obj k = SCont (Some ws) 0 0 0 /\ In (e_ptr e) ws /\
  run_gc r s = Ok s' /\ on_free_list s' (e_ptr e).
Proof.
  exists page, k3, [mkentry 65824 16 SString; mkentry 65552 256 (SCont (Some [65824]) 0 0 0)], [65824; 65552],
    (on_stack [65552]), k4, (mkentry 65552 256 (SCont (Some [65824]) 0 0 0)), (mkentry 65824 16 SString), [65824].
  split; [|split; [right; left; reflexivity|split; [left; reflexivity|split; [|split; [reflexivity|split; [left; reflexivity|split]]]]]].
  - apply (h_write page k2 [mkentry 65824 16 SString; mkentry 65552 256 (SCont None 0 0 0)] _
             [mkentry 65824 16 SString] (mkentry 65552 256 (SCont None 0 0 0)) [] (SCont (Some [65824]) 0 0 0) k3);
      [|reflexivity|reflexivity|vm_compute; reflexivity].
    apply (h_alloc page k1 [mkentry 65552 256 (SCont None 0 0 0)] [65552] no_os (on_stack [65552]) GC_STRING 16 65824 k2
             [mkentry 65552 256 (SCont None 0 0 0)]).
    + apply (h_alloc page w0 [] [] no_os (on_stack []) GC_CONT 256 65552 k1 []).
      * apply h_init; [exact page_ok | lia | reflexivity].
      * split; [lia | intros; reflexivity].
      * apply no_os_fresh.
      * vm_compute. reflexivity.
      * split; [constructor | intros e []].
    + split; [lia | intros; lia].
    + apply no_os_fresh.
    + vm_compute. reflexivity.
    + split; [repeat constructor; intros []|]. intros e [<- | []]. split; [left; reflexivity|].
      apply (reach_root _ _ (mkentry 65552 256 (SCont None 0 0 0))); [left; reflexivity|].
      right. right. right. exists [65552]. cbn. auto.
  - right. right. right. exists [65552]. cbn. auto.
  - vm_compute. reflexivity.
  - exists 0%nat. split; [unfold NUM_BUCKETS; lia|]. vm_compute. auto.
Qed.
Definition m1 := st_of (gc_alloc no_os page (on_stack []) GC_SMOB 40 w0).
Definition m2 := st_of (gc_alloc no_os page (on_stack [65552]) GC_STRING 16 m1).
Definition m3 := gc_of (write_obj m2 65552 (SSmob 65632 0 0)).
Definition m4 := gc_of (run_gc (on_stack [65552]) m3).
Theorem c101_smob_data_refuted : exists page s v ever r s' k e,
  history page s v ever /\ In k v /\ In e v /\ root_word r (e_ptr k) /\
  e_obj k = SSmob (e_ptr e) 0 0 /\ run_gc r s = Ok s' /\ on_free_list s' (e_ptr e).
Proof.
  exists page, m3, [mkentry 65632 16 SString; mkentry 65552 40 (SSmob 65632 0 0)], [65632; 65552],
    (on_stack [65552]), m4, (mkentry 65552 40 (SSmob 65632 0 0)), (mkentry 65632 16 SString).
  split; [|split; [right; left; reflexivity|split; [left; reflexivity|split; [|split; [reflexivity|split]]]]].
  - apply (h_write page m2 [mkentry 65632 16 SString; mkentry 65552 40 (SSmob 0 0 0)] _
             [mkentry 65632 16 SString] (mkentry 65552 40 (SSmob 0 0 0)) [] (SSmob 65632 0 0) m3);
      [|reflexivity|reflexivity|vm_compute; reflexivity].
    apply (h_alloc page m1 [mkentry 65552 40 (SSmob 0 0 0)] [65552] no_os (on_stack [65552]) GC_STRING 16 65632 m2
             [mkentry 65552 40 (SSmob 0 0 0)]).
    + apply (h_alloc page w0 [] [] no_os (on_stack []) GC_SMOB 40 65552 m1 []).
      * apply h_init; [exact page_ok | lia | reflexivity].
      * split; [lia | intros; lia].
      * apply no_os_fresh.
      * vm_compute. reflexivity.
      * split; [constructor | intros e []].
    + split; [lia | intros; lia].
    + apply no_os_fresh.
    + vm_compute. reflexivity.
    + split; [repeat constructor; intros []|]. intros e [<- | []]. split; [left; reflexivity|].
      apply (reach_root _ _ (mkentry 65552 40 (SSmob 0 0 0))); [left; reflexivity|].
      right. right. right. exists [65552]. cbn. auto.
  - right. right. right. exists [65552]. cbn. auto.
  - vm_compute. reflexivity.
  - exists 0%nat. split; [unfold NUM_BUCKETS; lia|]. vm_compute. auto.
Qed.

(** ** C51: everything unreachable is reclaimed *)
Theorem c51_exactly_unreachable : forall page s v ever r s' p,
  history page s v ever -> tame_roots s v r -> tame_view s v ->
  run_gc r s = Ok s' -> In p ever ->
  (on_free_list s' p <-> ~ reachable v r p).
Proof.
  intros page s v ever r s' p H TR TV E I. destruct (history_inv _ _ _ _ H) as [_ [ts [W [U V]]]].
  destruct (run_gc_spec s ts r s' W U E) as [_ [_ [_ [_ [_ [_ [_ FREE]]]]]]]. split.
  - intros [k [_ F]] R. apply FREE in F. destruct F as [NC _]. apply NC. apply (reach_creach s v ever r p V R).
  - intros NR. pose proof (v_ever _ _ _ V p I) as HD. destruct (hdr_lookup _ _ HD) as [b L].
    exists (size_to_bucket (bsize b)). split; [pose proof (bucket_le (bsize b)); unfold NUM_BUCKETS; lia|].
    unfold HEADER. apply FREE. split; [|eauto]. intros C. apply NR.
    destruct (creach_reach s ts v ever r _ W V TR TV C) as [R _].
    replace (p - 16 + 16) with p in R by lia. exact R.
Qed.
Example c51_exactly_unreachable_meets : on_free_list w6 str /\ ~ on_free_list w6 vect.
Proof.
  destruct r5_tame as [TR [TV SA]].
  assert (G := fun p I => c51_exactly_unreachable page w5 v5 [str; vect; cell] r5 w6 p w5_history TR TV w6_run I).
  split.
  - apply G; [cbn; auto | exact r5_str].
  - intros F. apply G in F; [|cbn; auto]. apply F. exact r5_vect.
Qed.
(** whatever the roots contain, what the collector cannot see from them is freed:
    a block not freed is pointed to by a root word or by a block not freed *)
Theorem c51_only_the_visible_survives : forall page s v ever r s' p,
  history page s v ever -> run_gc r s = Ok s' -> In p ever -> ~ on_free_list s' p ->
  root_word r p \/
  exists q o, In q ever /\ ~ on_free_list s' q /\ object_at s q = Some o /\ refers o p.
Proof.
  intros page s v ever r s' p H E I NF. destruct (history_inv _ _ _ _ H) as [_ [ts [W [U V]]]].
  destruct (run_gc_spec s ts r s' W U E) as [_ [_ [_ [_ [_ [_ [_ FREE]]]]]]].
  assert (DEC : forall x, creach s r x \/ ~ creach s r x).
  { intros x. unfold run_gc in E. destruct (mark_phase r s) as [s1| | | |] eqn:E1; try discriminate.
    destruct (mark_phase_marks s ts r s1 W U E1) as [_ M]. rewrite <- M. apply marked_dec. }
  assert (FREE' : forall q, In q ever -> ~ creach s r (q - 16) -> on_free_list s' q).
  { intros q J NC. pose proof (v_ever _ _ _ V q J) as HD. destruct (hdr_lookup _ _ HD) as [b L].
    exists (size_to_bucket (bsize b)). split; [pose proof (bucket_le (bsize b)); unfold NUM_BUCKETS; lia|].
    unfold HEADER. apply FREE. eauto. }
  destruct (DEC (p - 16)) as [C | NC]; [|exfalso; apply NF; apply FREE'; assumption].
  inversion C as [a R Ha Ea | a b c CA L RF Hc Ec].
  - left. replace (p - 16 + 16) with p in R by lia. exact R.
  - right. exists (a + 16), (bobj b). replace (p - 16 + 16) with p in RF by lia.
    split; [apply (v_all _ _ _ V); apply (creach_hdr s r); exact CA|].
    split; [|split; [|exact RF]].
    + intros [k [_ F]]. unfold HEADER in F. replace (a + 16 - 16) with a in F by lia. apply FREE in F. tauto.
    + unfold object_at, HEADER. replace (a + 16 - 16) with a by lia. rewrite L. reflexivity.
Qed.
(** no mark is left behind, so the next collection starts afresh *)
Theorem c51_marks_clear : forall page s v ever a b,
  history page s v ever -> lookup (mem s) a = Some b -> bmark b = false.
Proof.
  intros page s v ever a b H L. destruct (history_inv _ _ _ _ H) as [_ [ts [W [U V]]]]. exact (U a b L).
Qed.
Example c51_marks_clear_meets : exists b, lookup (mem w6) (cell - 16) = Some b /\ bmark b = false.
Proof. eexists. split; [vm_compute; reflexivity | reflexivity]. Qed.

(** the memory of an unreachable object is handed out again by the next
    allocation of that size, and the heap does not grow *)
Theorem c51_memory_reused : forall page s v ever r s' e os r' t,
  history page s v ever -> tame_roots s v r -> tame_view s v -> run_gc r s = Ok s' ->
  In e v -> ~ reachable v r (e_ptr e) ->
  exists p s'', gc_alloc os page r' t (e_size e) s' = Ok (p, s'') /\
    In p ever /\ ~ reachable v r p /\ all_segs s'' = all_segs s.
Proof.
  intros page s v ever r s' e os r' t H TR TV E I NR.
  destruct (history_inv _ _ _ _ H) as [_ [ts [W [U V]]]].
  destruct (run_gc_spec s ts r s' W U E) as [W' [_ [FR [SI [HD [_ [SZ FREE]]]]]]].
  destruct (v_ent _ _ _ V e I) as [_ [b [L [_ [LE [_ BU]]]]]].
  destruct (SZ _ _ L) as [b' [L' [S' _]]].
  assert (TH : threshold s' >= MIN_THRESHOLD).
  { unfold run_gc in E. destruct (mark_phase r s) as [s1| | | |]; try discriminate. cbn [bind] in E.
    unfold sweep_phase in E. destruct (sweep_segs _ _) as [[s2 tot]| | | |]; try discriminate. cbn [bind] in E.
    injection E as <-. cbn [threshold]. destruct (tot * 3 / 2 <? MIN_THRESHOLD) eqn:Q; [lia|].
    apply Z.ltb_ge in Q. lia. }
  rewrite gc_alloc_core. rewrite SI.
  replace (threshold s' <=? 0) with false by (symmetry; apply Z.leb_gt; unfold MIN_THRESHOLD in TH; lia).
  cbn [bind].
  destruct (alloc_reuses os page t (e_size e) (charge (e_size e) s') ts (e_ptr e - 16) b') as [p [s'' [A [B C]]]].
  - apply charge_wf. exact W'.
  - exact L'.
  - rewrite S'. exact LE.
  - rewrite S'. exact BU.
  - change (free (charge (e_size e) s')) with (free s'). apply FREE. split; [|exists b; auto].
    intros CR. apply NR. destruct (creach_reach s ts v ever r _ W V TR TV CR) as [R _].
    replace (e_ptr e - 16 + 16) with (e_ptr e) in R by lia. exact R.
  - exists p, s''. split; [exact A|]. change (free (charge (e_size e) s')) with (free s') in B.
    assert (NC := proj1 (FREE _ _) B). destruct NC as [NC [c [Lc _]]].
    split; [|split].
    + replace p with (p - 16 + 16) by lia. apply (v_all _ _ _ V). unfold hdr. congruence.
    + intros R. apply NC. apply (reach_creach s v ever r p V R).
    + rewrite C. change (all_segs (charge (e_size e) s')) with (all_segs s'). apply frame_all. exact FR.
Qed.
Example c51_memory_reused_meets : exists p s'', gc_alloc no_os page (on_stack []) GC_SYMBOL 16 w6 = Ok (p, s'') /\
  In p [str; vect; cell] /\ ~ reachable v5 r5 p /\ all_segs s'' = all_segs w5.
Proof.
  destruct r5_tame as [TR [TV SA]].
  apply (c51_memory_reused page w5 v5 [str; vect; cell] r5 w6 (mkentry str 16 SString) no_os (on_stack []) GC_SYMBOL
           w5_history TR TV w6_run).
  - left. reflexivity.
  - exact r5_str.
Qed.

(** a block over 128 bytes whose size is not a multiple of 16 derails the sweep:
    bump_allocate rounds the extent up but [size] stays unrounded (gc.cc 153-155,
    256-258, 441-461), so everything after it in its segment is never swept again.
    (No struct of the program has such a size: c52_program_sizes.) *)
Definition d1 := st_of (gc_alloc no_os page (on_stack []) GC_STRING 136 w0).
Definition d2 := st_of (gc_alloc no_os page (on_stack []) GC_STRING 16 d1).
Definition d3 := gc_of (run_gc (on_stack []) d2).
Theorem c102_odd_large_size_refuted : exists os page r p1 s1 p2 s2 s3,
  gc_alloc os page r GC_STRING 136 (gc_init 65536 page) = Ok (p1, s1) /\
  gc_alloc os page r GC_STRING 16 s1 = Ok (p2, s2) /\
  run_gc (on_stack []) s2 = Ok s3 /\ ~ on_free_list s3 p2.
Proof.
  exists no_os, page, (on_stack []), 65552, d1, 65712, d2, d3.
  split; [vm_compute; reflexivity|]. split; [vm_compute; reflexivity|]. split; [vm_compute; reflexivity|].
  intros [k [K I]]. unfold NUM_BUCKETS in K. unfold HEADER in I.
  do 5 (destruct k as [|k]; [vm_compute in I; intuition discriminate|]). lia.
Qed.

(** ** C52: allocations are aligned, large enough and never overlap *)
Theorem c52_no_overlap : forall page s v ever e f,
  history page s v ever -> In e v -> In f v -> e_ptr e <> e_ptr f ->
  disjoint (e_ptr e - 16) (16 + e_size e) (e_ptr f - 16) (16 + e_size f).
Proof.
  intros page s v ever e f H I J N. destruct (history_inv _ _ _ _ H) as [_ [ts [W [U V]]]].
  destruct (v_ent _ _ _ V e I) as [P [b [L [_ [LE _]]]]]. destruct (v_ent _ _ _ V f J) as [Q [c [M [_ [LF _]]]]].
  pose proof (headers_disjoint s ts W _ _ _ _ L M ltac:(lia)) as D. unfold disjoint in *. lia.
Qed.
Example c52_no_overlap_meets : disjoint (cell - 16) 40 (vect - 16) 32.
Proof.
  apply (c52_no_overlap page w5 v5 [str; vect; cell] (mkentry cell 24 o_cell) (mkentry vect 16 o_vect) w5_history);
    [right; left; reflexivity | right; right; left; reflexivity | discriminate].
Qed.
(** no pointer is handed out twice while it is in use *)
Theorem c52_distinct : forall page s v ever, history page s v ever -> NoDup (map e_ptr v).
Proof.
  intros page s v ever H. destruct (history_inv _ _ _ _ H) as [_ [ts [W [U V]]]]. exact (v_nodup _ _ _ V).
Qed.
(** 16-byte aligned, and header and payload lie inside one heap segment *)
Theorem c52_aligned_and_mapped : forall page s v ever e,
  history page s v ever -> In e v ->
  e_ptr e mod 16 = 0 /\
  exists g, In g (all_segs s) /\ sstart g <= e_ptr e - 16 /\ e_ptr e + e_size e <= sstart g + ssize g.
Proof.
  intros page s v ever e H I. destruct (history_inv _ _ _ _ H) as [_ [ts [W [U V]]]].
  destruct (v_ent _ _ _ V e I) as [P [b [L [_ [LE _]]]]].
  destruct (header_place s ts W _ _ L) as [g [l [Ig [_ [_ [_ [AL [A B]]]]]]]].
  destruct (w_seg _ _ W g Ig) as [_ [_ [C _]]].
  split; [rewrite <- mod16_sub; exact AL|]. exists g. split; [exact Ig|]. lia.
Qed.
Example c52_aligned_meets : vect mod 16 = 0.
Proof.
  apply (c52_aligned_and_mapped page w5 v5 [str; vect; cell] (mkentry vect 16 o_vect) w5_history).
  right. right. left. reflexivity.
Qed.
(** an allocation itself: the object it returns is zeroed, and no object the
    program can reach is disturbed *)
Theorem c52_allocation : forall page s v ever os r t size p s' e,
  history page s v ever -> good_size size -> fresh_mapping page s os ->
  gc_alloc os page r t size s = Ok (p, s') -> In e v -> reachable v r (e_ptr e) ->
  object_at s' p = Some (zero_obj t) /\ p mod 16 = 0 /\
  object_at s' (e_ptr e) = Some (e_obj e) /\
  disjoint (p - 16) (16 + size) (e_ptr e - 16) (16 + e_size e).
Proof.
  intros page s v ever os r t size p s' e H GS FM E I R.
  assert (H' : history page s' (mkentry p size (zero_obj t) :: [e]) (p :: ever)).
  { apply (h_alloc page s v ever os r t size p s' [e] H GS FM E).
    split; [repeat constructor; intros []|]. intros f [<- | []]. auto. }
  pose proof (c52_distinct _ _ _ _ H') as ND. cbn [map e_ptr] in ND.
  split; [apply (c50_contents _ _ _ _ (mkentry p size (zero_obj t)) H'); left; reflexivity|].
  split; [apply (c52_aligned_and_mapped _ _ _ _ (mkentry p size (zero_obj t)) H'); left; reflexivity|].
  split; [apply (c50_contents _ _ _ _ e H'); right; left; reflexivity|].
  apply (c52_no_overlap _ _ _ _ (mkentry p size (zero_obj t)) e H'); [left; reflexivity | right; left; reflexivity|].
  cbn [e_ptr]. inversion ND as [|? ? NI _]; subst. intros EQ. apply NI. left. symmetry. exact EQ.
Qed.
Example c52_allocation_meets : object_at (st_of (gc_alloc no_os page r5 GC_PROC 32 w5)) cell = Some o_cell.
Proof.
  apply (c52_allocation page w5 v5 [str; vect; cell] no_os r5 GC_PROC 32 65664
           (st_of (gc_alloc no_os page r5 GC_PROC 32 w5)) (mkentry cell 24 o_cell) w5_history).
  - split; [lia | intros; lia].
  - apply no_os_fresh.
  - vm_compute. reflexivity.
  - right. left. reflexivity.
  - exact r5_cell.
Qed.
(** allocation succeeds while the operating system provides memory and fewer
    than 64 segments are open *)
Theorem c52_allocation_completes : forall page s v ever os r t size,
  history page s v ever -> tame_roots s v r -> tame_view s v ->
  (forall e, In e v -> sound_arrays (e_obj e)) ->
  (forall n, exists st, os n = Some st) -> (length (all_segs s) < MAX_SEGMENTS)%nat ->
  exists p s', gc_alloc os page r t size s = Ok (p, s').
Proof.
  intros page s v ever os r t size H TR TV SA OS N.
  destruct (history_inv _ _ _ _ H) as [_ [ts [W [U V]]]].
  unfold all_segs in N. rewrite app_length in N. cbn [length] in N.
  rewrite gc_alloc_core. destruct (threshold s <=? since s).
  - destruct (collect_ok s ts v ever r W U V TR TV SA) as [s1 E]. rewrite E. cbn [bind].
    destruct (run_gc_spec s ts r s1 W U E) as [W1 [_ [F _]]].
    apply (alloc_core_ok os page t size (charge size s1) ts); [apply charge_wf; exact W1 | exact OS|].
    cbn [charge segs]. rewrite <- (f_segs _ _ F). lia.
  - cbn [bind]. apply (alloc_core_ok os page t size (charge size s) ts); [apply charge_wf; exact W | exact OS|].
    cbn [charge segs]. lia.
Qed.
Example c52_allocation_completes_meets :
  exists p s', gc_alloc far page r5 GC_LIST 24 w5 = Ok (p, s').
Proof.
  apply (c52_allocation_completes page w5 v5 [str; vect; cell] far r5 GC_LIST 24 w5_history); try apply r5_tame.
  - intros n. exists 134217728. reflexivity.
  - vm_compute. lia.
Qed.
(** every struct the program allocates has a size the allocator handles *)
Theorem c52_program_sizes : forall t, good_size (sizeof t).
Proof. intros t. destruct t; (split; [cbn; lia | cbn; intros; try lia; reflexivity]). Qed.
