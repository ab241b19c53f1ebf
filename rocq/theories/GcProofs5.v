(** The invariant holds along every history; allocation and collection of a
    program without stale pointers never crash. *)
From Verif Require Import Base GcModel GcSpec GcProofs GcProofs2 GcProofs3 GcProofs4.
From Coq Require Import Lia.

Lemma init_wf st page : page_size page -> 0 < st -> st mod page = 0 ->
  wf (gc_init st page) [[]] /\ unmarked (gc_init st page) /\ vok (gc_init st page) [] [].
Proof.
  intros PG P M. pose proof (mod16_page st page PG M) as A. destruct PG as [PG1 PG2].
  pose proof (round_up_facts INITIAL_HEAP_SIZE page ltac:(lia) ltac:(unfold INITIAL_HEAP_SIZE; lia)) as [R _].
  assert (I16 : 16 <= INITIAL_HEAP_SIZE) by (unfold INITIAL_HEAP_SIZE; lia).
  unfold gc_init. set (size := round_up INITIAL_HEAP_SIZE page) in *. clearbody size.
  split; [|split].
  - constructor; cbn [mem segs cur heap_lo heap_hi free]; unfold all_segs; cbn [segs cur app].
    + constructor; [reflexivity | constructor].
    + discriminate.
    + intros g [<- | []]. cbn [sstart ssize sbump]. repeat split; auto; lia.
    + constructor; constructor.
    + discriminate.
    + discriminate.
    + intros k a [].
    + intros k. constructor.
    + eexists. split; [left; reflexivity|]. cbn. split; [reflexivity | lia].
  - intros a b H. discriminate.
  - constructor; try (intros e []); try apply NoDup_nil. reflexivity.
Qed.

Lemma write_wf s ts v1 e v2 ever o s' : wf s ts -> unmarked s -> vok s (v1 ++ e :: v2) ever ->
  tag_of o = tag_of (e_obj e) -> write_obj s (e_ptr e) o = Ok s' ->
  wf s' ts /\ unmarked s' /\ vok s' (v1 ++ mkentry (e_ptr e) (e_size e) o :: v2) ever.
Proof.
  intros W U V T H. unfold write_obj, HEADER in H.
  assert (IE : In e (v1 ++ e :: v2)) by (apply in_app_iff; right; left; reflexivity).
  destruct (v_ent _ _ _ V e IE) as [P [b [L [O [SZ [NF BU]]]]]].
  rewrite L in H. injection H as <-. rewrite (U _ _ L).
  assert (TB : tag_of o = btag b) by (rewrite T, <- O; symmetry; exact (w_tag _ _ W _ _ L)).
  pose proof (wf_reuse s ts (e_ptr e - 16) b (btag b) o (free s) W L TB (fun k x I => I) (w_nodup _ _ W)) as W'.
  assert (HD : forall a, hdr (with_mem s (store (mem s) (e_ptr e - 16) (mkblock false (btag b) (bsize b) o))) a <-> hdr s a).
  { intros a. unfold hdr. cbn [mem with_mem]. rewrite lookup_store.
    destruct (Z.eq_dec a (e_ptr e - 16)) as [-> | NE]; [|tauto]. rewrite L. split; congruence. }
  assert (ND : NoDup (map e_ptr v1 ++ e_ptr e :: map e_ptr v2)).
  { pose proof (v_nodup _ _ _ V) as N. rewrite map_app in N. exact N. }
  split; [exact W'|]. split.
  - intros x c. cbn [mem with_mem]. rewrite lookup_store. destruct (Z.eq_dec x (e_ptr e - 16)) as [-> | NE].
    + intros EE. injection EE as <-. reflexivity.
    + apply U.
  - constructor.
    + rewrite map_app. exact ND.
    + intros f I. cbn [mem with_mem free].
      apply in_app_iff in I. destruct I as [I | [<- | I]].
      * destruct (v_ent _ _ _ V f) as [P' [c [L' [O' [SZ' R']]]]]; [apply in_app_iff; auto|].
        split; [exact P'|]. exists c. split; [|auto]. rewrite lookup_store_ne; [exact L'|].
        assert (e_ptr f <> e_ptr e); [|lia]. intros EQ.
        apply (NoDup_remove_2 _ _ _ ND). apply in_app_iff. left. rewrite <- EQ. apply in_map. exact I.
      * cbn [e_ptr e_size e_obj]. split; [exact P|]. eexists. split; [apply lookup_store_eq|]. cbn. auto.
      * destruct (v_ent _ _ _ V f) as [P' [c [L' [O' [SZ' R']]]]]; [apply in_app_iff; right; right; exact I|].
        split; [exact P'|]. exists c. split; [|auto]. rewrite lookup_store_ne; [exact L'|].
        assert (e_ptr f <> e_ptr e); [|lia]. intros EQ.
        apply (NoDup_remove_2 _ _ _ ND). apply in_app_iff. right. rewrite <- EQ. apply in_map. exact I.
    + intros p I. apply HD. exact (v_ever _ _ _ V p I).
    + intros a Ha. apply (v_all _ _ _ V). apply HD. exact Ha.
    + intros f I. apply in_app_iff in I. destruct I as [I | [<- | I]].
      * apply (v_sub _ _ _ V). apply in_app_iff. auto.
      * cbn [e_ptr]. apply (v_sub _ _ _ V). exact IE.
      * apply (v_sub _ _ _ V). apply in_app_iff. right. right. exact I.
Qed.

Lemma shrink_vok s v ever r v' : vok s v ever -> within v r v' -> vok s v' ever.
Proof.
  intros V WI. constructor.
  - apply (within_nodup v r); [exact (v_nodup _ _ _ V) | exact WI].
  - intros e I. apply (v_ent _ _ _ V). apply WI. exact I.
  - exact (v_ever _ _ _ V).
  - exact (v_all _ _ _ V).
  - intros e I. apply (v_sub _ _ _ V). apply WI. exact I.
Qed.
Lemma fresh_vok s v ever p t sz s' size : vok s v ever -> fresh_block s (p - 16) t sz s' ->
  0 <= size <= sz -> size_to_bucket sz = size_to_bucket size ->
  vok s' (mkentry p size (zero_obj t) :: v) (p :: ever).
Proof.
  intros V F S B.
  assert (OTHER : forall e, In e v -> e_ptr e - 16 <> p - 16).
  { intros e I EQ. destruct (v_ent _ _ _ V e I) as [_ [b [L [_ [_ [NF _]]]]]]. rewrite EQ in L, NF.
    destruct (n_was _ _ _ _ _ F) as [N | [k K]]; [congruence | exact (NF k K)]. }
  constructor.
  - cbn [map e_ptr]. constructor; [|exact (v_nodup _ _ _ V)].
    intros I. apply in_map_iff in I. destruct I as [e [E I]]. apply (OTHER e I). lia.
  - intros e [<- | I].
    + cbn [e_ptr e_size e_obj]. split; [lia|]. eexists. split; [exact (n_new _ _ _ _ _ F)|].
      cbn [bobj bsize]. split; [reflexivity|]. split; [lia|]. split; [|exact B].
      intros k I. apply (n_free _ _ _ _ _ F) in I. destruct I as [_ N]. congruence.
    + destruct (v_ent _ _ _ V e I) as [P [b [L [O [SZ [NF BU]]]]]]. split; [exact P|]. exists b.
      rewrite (n_old _ _ _ _ _ F) by (apply OTHER; exact I).
      repeat (split; [assumption|]). split; [|exact BU].
      intros k J. apply (n_free _ _ _ _ _ F) in J. apply (NF k). apply J.
  - intros q [<- | I]; unfold hdr.
    + rewrite (n_new _ _ _ _ _ F). discriminate.
    + destruct (Z.eq_dec (q - 16) (p - 16)) as [-> | NE]; [rewrite (n_new _ _ _ _ _ F); discriminate|].
      rewrite (n_old _ _ _ _ _ F) by exact NE. exact (v_ever _ _ _ V q I).
  - intros a H. unfold hdr in H. destruct (Z.eq_dec a (p - 16)) as [-> | NE]; [left; lia|].
    rewrite (n_old _ _ _ _ _ F) in H by exact NE. right. apply (v_all _ _ _ V). exact H.
  - intros e [<- | I]; [left; reflexivity | right; apply (v_sub _ _ _ V); exact I].
Qed.

Lemma frame_mapping page s s' os : frame s s' -> fresh_mapping page s os -> fresh_mapping page s' os.
Proof. intros F H n st E. rewrite (frame_all _ _ F). apply H. exact E. Qed.

Lemma alloc_wf os page r t size s ts v ever p s' v' :
  page_size page -> good_size size -> fresh_mapping page s os -> wf s ts -> unmarked s -> vok s v ever ->
  gc_alloc os page r t size s = Ok (p, s') -> within v r v' ->
  (exists ts', wf s' ts') /\ unmarked s' /\ vok s' (mkentry p size (zero_obj t) :: v') (p :: ever).
Proof.
  intros PG GS FM W U V H WI. rewrite gc_alloc_core in H.
  assert (S1 : exists s1, (if threshold s <=? since s then run_gc r s else Ok s) = Ok s1 /\
            wf s1 ts /\ unmarked s1 /\ vok s1 v' ever /\ frame s s1).
  { destruct (threshold s <=? since s).
    - destruct (run_gc r s) as [s1| | | |] eqn:E; try discriminate. exists s1. split; [reflexivity|].
      destruct (collect_vok s ts v ever r s1 v' W U V E WI) as [A [B C]].
      destruct (run_gc_spec s ts r s1 W U E) as [_ [_ [F _]]]. auto.
    - exists s. split; [reflexivity|]. split; [exact W|]. split; [exact U|].
      split; [apply (shrink_vok s v ever r v' V WI) | apply frame_refl]. }
  destruct S1 as [s1 [E1 [W1 [U1 [V1 F1]]]]]. rewrite E1 in H. cbn [bind] in H.
  destruct (alloc_core_spec os page t size (charge size s1) ts p s') as [sz [SZ [FB [AL BU]]]]; auto.
  - apply (frame_mapping page s); [|exact FM].
    apply (frame_trans _ s1); [exact F1 | constructor; reflexivity].
  - apply charge_wf. exact W1.
  - split; [exact (n_wf _ _ _ _ _ FB)|]. split; [exact (n_unm _ _ _ _ _ FB)|].
    apply (fresh_vok (charge size s1) v' ever p t sz s' size); auto.
    + destruct V1. constructor; assumption.
    + destruct GS as [G _]. lia.
Qed.

Lemma history_inv page s v ever : history page s v ever ->
  page_size page /\ exists ts, wf s ts /\ unmarked s /\ vok s v ever.
Proof.
  induction 1 as [st PG P M | s v ever os r t size p s' v' H IH GS FM E WI
                 | s v ever v1 e v2 o s' H IH EV T E | s v ever r s' v' H IH E WI].
  - split; [exact PG|]. exists [[]]. apply init_wf; assumption.
  - destruct IH as [PG [ts [W [U V]]]]. split; [exact PG|].
    destruct (alloc_wf os page r t size s ts v ever p s' v' PG GS FM W U V E WI) as [[ts' W'] R].
    exists ts'. auto.
  - destruct IH as [PG [ts [W [U V]]]]. split; [exact PG|]. exists ts. subst v.
    apply (write_wf s ts v1 e v2 ever o s' W U V T E).
  - destruct IH as [PG [ts [W [U V]]]]. split; [exact PG|]. exists ts.
    apply (collect_vok s ts v ever r s' v' W U V E WI).
Qed.

(** * programs without stale pointers *)
Lemma tame_safe s v ever w : vok s v ever -> tame s v w -> safe s w.
Proof.
  intros V [H | [H | H]]; [left; exact H | | right; right; exact H].
  apply in_map_iff in H. destruct H as [e [<- I]]. destruct (v_ent _ _ _ V e I) as [_ [b [L _]]].
  right. left. unfold hdr. congruence.
Qed.
Lemma tame_view_in s ts v w : wf s ts -> tame s v w -> hdr s (w - 16) -> In w (map e_ptr v).
Proof.
  intros W T H. destruct (hdr_lookup _ _ H) as [b L]. destruct (header_range s ts W _ _ L) as [A [B [C D]]].
  rewrite mod16_sub in D.
  destruct T as [T | [T | [T | [T | T]]]]; [lia | exact T | contradiction | lia | lia].
Qed.
(** what the collector finds is what the program can reach *)
Lemma creach_reach s ts v ever r a : wf s ts -> vok s v ever -> tame_roots s v r -> tame_view s v ->
  creach s r a -> reachable v r (a + 16) /\ exists e, In e v /\ e_ptr e = a + 16.
Proof.
  intros W V TR TV. induction 1 as [a R H | a b c C IH L RF H].
  - assert (I : In (a + 16) (map e_ptr v)).
    { apply (tame_view_in s ts v (a + 16) W); [apply TR; exact R|]. replace (a + 16 - 16) with a by lia. exact H. }
    apply in_map_iff in I. destruct I as [e [E I]]. split; [|eauto]. rewrite <- E.
    apply reach_root; [exact I | rewrite E; exact R].
  - destruct IH as [RA [e [I E]]].
    destruct (v_ent _ _ _ V e I) as [_ [b' [L' [O _]]]]. rewrite E in L'.
    replace (a + 16 - 16) with a in L' by lia. rewrite L in L'. injection L' as <-.
    rewrite O in RF.
    assert (J : In (c + 16) (map e_ptr v)).
    { apply (tame_view_in s ts v (c + 16) W); [apply (TV e); [exact I | exact RF]|].
      replace (c + 16 - 16) with c by lia. exact H. }
    apply in_map_iff in J. destruct J as [f [F J]]. split; [|eauto]. rewrite <- F.
    apply (reach_field v r e f); [exact I | rewrite E; exact RA | rewrite F; exact RF | exact J].
Qed.
Lemma collect_ok s ts v ever r : wf s ts -> unmarked s -> vok s v ever ->
  tame_roots s v r -> tame_view s v -> (forall e, In e v -> sound_arrays (e_obj e)) ->
  exists s', run_gc r s = Ok s'.
Proof.
  intros W U V TR TV SA. unfold run_gc.
  destruct (mark_phase_ok s ts r W U) as [s1 E].
  - intros w R. apply (tame_safe s v ever w V). apply TR. exact R.
  - intros a b C L. destruct (creach_reach s ts v ever r a W V TR TV C) as [_ [e [I EP]]].
    destruct (v_ent _ _ _ V e I) as [_ [b' [L' [O _]]]]. rewrite EP in L'.
    replace (a + 16 - 16) with a in L' by lia. rewrite L in L'. injection L' as <-. rewrite O.
    split; [apply SA; exact I|]. intros w RF. apply (tame_safe s v ever w V). apply (TV e); assumption.
  - rewrite E. cbn [bind]. destruct (mark_phase_marks s ts r s1 W U E) as [Q _].
    destruct (sweep_phase_spec s1 ts (meq_wf _ _ _ Q W)) as [s2 [E2 _]].
    rewrite E2. cbn [bind]. eauto.
Qed.

Lemma bump_ok os page total s : (forall n, exists st, os n = Some st) ->
  (S (length (segs s)) < MAX_SEGMENTS)%nat -> exists a s', bump_allocate os page total s = Ok (a, s').
Proof.
  intros OS N. unfold bump_allocate. cbv zeta.
  set (tt := if Z.land total 15 =? 0 then total else round_up total 16).
  set (bb := if Z.land (sbump (cur s)) 15 =? 0 then sbump (cur s) else round_up (sbump (cur s)) 16).
  clearbody tt bb. destruct (bb + tt >? sstart (cur s) + ssize (cur s)); [|eauto].
  set (gg := round_up _ page). clearbody gg. destruct (OS gg) as [st ->].
  destruct (Nat.leb MAX_SEGMENTS (S (length (segs s)))) eqn:L; [apply Nat.leb_le in L; lia | eauto].
Qed.
Lemma alloc_core_ok os page t size s ts : wf s ts -> (forall n, exists st, os n = Some st) ->
  (S (length (segs s)) < MAX_SEGMENTS)%nat -> exists p s', alloc_core os page t size s = Ok (p, s').
Proof.
  intros W OS N. unfold alloc_core. cbv zeta.
  destruct (Nat.ltb (size_to_bucket size) NUM_FIXED_BUCKETS).
  - destruct (free s (size_to_bucket size)) as [|a rest]; [|eauto].
    destruct (bump_ok os page (16 + class_size (size_to_bucket size)) s OS N) as [a [s' E]].
    rewrite E. cbn [bind]. eauto.
  - destruct (first_fit (mem s) size (free s LARGE_BUCKET)) as [[a rest]|] eqn:F.
    + destruct (first_fit_spec _ _ _ _ _ F) as [[b [L _]] _]. cbn [mem with_free]. rewrite L. eauto.
    + destruct (bump_ok os page (16 + size) s OS N) as [a [s' E]]. rewrite E. cbn [bind]. eauto.
Qed.

(** a block on the free list of its size is used again *)
Lemma first_fit_finds m n : forall l x b, (forall y, In y l -> lookup m y <> None) ->
  In x l -> lookup m x = Some b -> n <= bsize b -> exists a rest, first_fit m n l = Some (a, rest).
Proof.
  induction l as [|y r IH]; intros x b A I L S; [destruct I|].
  cbn [first_fit]. destruct (lookup m y) as [c|] eqn:Ly.
  - destruct (n <=? bsize c) eqn:E; [eauto|].
    destruct I as [-> | I].
    + rewrite L in Ly. injection Ly as ->. apply Z.leb_gt in E. lia.
    + destruct (IH x b) as [a [rest F]]; auto. { intros z J. apply A. right. exact J. }
      rewrite F. eauto.
  - exfalso. apply (A y); [left; reflexivity | exact Ly].
Qed.
Lemma alloc_reuses os page t size s ts x b : wf s ts -> lookup (mem s) x = Some b -> size <= bsize b ->
  size_to_bucket (bsize b) = size_to_bucket size -> In x (free s (size_to_bucket size)) ->
  exists p s', alloc_core os page t size s = Ok (p, s') /\ In (p - 16) (free s (size_to_bucket size)) /\
     all_segs s' = all_segs s.
Proof.
  intros W L SZ BU I. unfold alloc_core. cbv zeta.
  destruct (Nat.ltb (size_to_bucket size) NUM_FIXED_BUCKETS) eqn:E.
  - destruct (free s (size_to_bucket size)) as [|a rest] eqn:F; [destruct I|].
    eexists. eexists. split; [reflexivity|]. split; [|reflexivity].
    unfold HEADER. replace (a + 16 - 16) with a by lia. left. reflexivity.
  - apply Nat.ltb_ge in E. unfold NUM_FIXED_BUCKETS in E. pose proof (bucket_le size).
    assert (K : size_to_bucket size = LARGE_BUCKET) by (unfold LARGE_BUCKET; lia). rewrite K in *.
    destruct (first_fit_finds (mem s) size (free s LARGE_BUCKET) x b) as [a [rest F]]; auto.
    { intros y J. destruct (w_free _ _ W _ _ J) as [c [Lc _]]. congruence. }
    rewrite F. destruct (first_fit_spec _ _ _ _ _ F) as [[c [Lc _]] [_ [_ IA]]].
    cbn [mem with_free]. rewrite Lc. eexists. eexists. split; [reflexivity|]. split; [|reflexivity].
    unfold HEADER. replace (a + 16 - 16) with a by lia. exact IA.
Qed.
