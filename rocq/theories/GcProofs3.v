(** The sweep phase frees exactly the unmarked blocks. *)
From Verif Require Import Base GcModel GcSpec GcProofs GcProofs2.
From Coq Require Import Lia.

Definition swept (b : block) : block :=
  if bmark b then set_mark b false
  else mkblock (bmark b) (btag b) (bsize b) (sweep_fn (btag b) (bobj b)).

Definition sweep1 (c : gc * Z) (a : Z) : gc * Z :=
  match lookup (mem (fst c)) a with Some b => sweep_block a b c | None => c end.

(** everything but memory contents, free lists and counters *)
Record frame (s s' : gc) : Prop := {
  f_segs : segs s = segs s'; f_cur : cur s = cur s';
  f_lo : heap_lo s = heap_lo s'; f_hi : heap_hi s = heap_hi s'
}.
Lemma frame_refl s : frame s s.
Proof. constructor; reflexivity. Qed.
Lemma frame_trans a b c : frame a b -> frame b c -> frame a c.
Proof. intros [A B C D] [A' B' C' D']. constructor; congruence. Qed.
Lemma frame_all s s' : frame s s' -> all_segs s' = all_segs s.
Proof. intros [A B _ _]. unfold all_segs. congruence. Qed.

Lemma sweep1_frame c a : frame (fst c) (fst (sweep1 c a)).
Proof.
  unfold sweep1. destruct (lookup (mem (fst c)) a) as [b|]; [|apply frame_refl].
  destruct c as [s tot]. unfold sweep_block. destruct (bmark b); constructor; reflexivity.
Qed.
Lemma sweep1_lookup c a x : lookup (mem (fst (sweep1 c a))) x =
  if Z.eq_dec x a then option_map swept (lookup (mem (fst c)) a) else lookup (mem (fst c)) x.
Proof.
  unfold sweep1. destruct (lookup (mem (fst c)) a) as [b|] eqn:L.
  - destruct c as [s tot]. unfold sweep_block, swept. cbn [fst] in *.
    destruct (bmark b) eqn:M; cbn [fst mem with_mem free_to_list with_free option_map];
      rewrite lookup_store; destruct (Z.eq_dec x a); rewrite ?M; reflexivity.
  - cbn [option_map]. destruct (Z.eq_dec x a) as [-> | N]; [exact L | reflexivity].
Qed.
Lemma sweep1_size c a x : option_map bsize (lookup (mem (fst (sweep1 c a))) x)
  = option_map bsize (lookup (mem (fst c)) x).
Proof.
  rewrite sweep1_lookup. destruct (Z.eq_dec x a) as [-> | N]; [|reflexivity].
  destruct (lookup (mem (fst c)) a) as [b|]; [|reflexivity]. cbn. unfold swept.
  destruct (bmark b); reflexivity.
Qed.
Lemma sweep1_free c a k :
  free (fst (sweep1 c a)) k =
  match lookup (mem (fst c)) a with
  | Some b => if bmark b then free (fst c) k
              else if Nat.eqb k (size_to_bucket (bsize b)) then a :: free (fst c) k else free (fst c) k
  | None => free (fst c) k
  end.
Proof.
  unfold sweep1. destruct (lookup (mem (fst c)) a) as [b|]; [|reflexivity].
  destruct c as [s tot]. unfold sweep_block. destruct (bmark b); [reflexivity|].
  cbn [fst free_to_list with_free free with_mem bsize]. unfold set_free.
  destruct (Nat.eqb k (size_to_bucket (bsize b))) eqn:E; [|reflexivity].
  apply Nat.eqb_eq in E. rewrite E. reflexivity.
Qed.

(** the walk over one segment visits its tiles in order *)
Lemma sweep_seg_fold : forall l fuel ptr fin c,
  tiling (mem (fst c)) ptr fin l -> (forall x k, lookup (mem (fst c)) x = Some k -> block_ok k) ->
  (forall x, In x l -> mapped (fst c) x = true) -> (length l <= fuel)%nat ->
  sweep_seg fuel ptr fin c = Ok (fold_left sweep1 l c).
Proof.
  induction l as [|x r IH]; intros fuel ptr fin c T K M F.
  - cbn in T. subst. destruct fuel; cbn [sweep_seg]; rewrite Z.leb_refl; reflexivity.
  - pose proof (tiling_le _ _ _ _ K T) as LE. cbn [length] in LE, F.
    destruct T as [-> [k [L T]]]. destruct fuel as [|f]; [lia|]. cbn [sweep_seg].
    destruct (fin <=? ptr) eqn:E; [apply Z.leb_le in E; lia|].
    unfold read_header. rewrite (M ptr (or_introl eq_refl)), L. cbn [bind].
    change (fold_left sweep1 (ptr :: r) c) with (fold_left sweep1 r (sweep1 c ptr)).
    assert (S1 : sweep_block ptr k c = sweep1 c ptr) by (unfold sweep1; rewrite L; reflexivity).
    rewrite S1.
    apply IH.
    + apply (tiling_ext (mem (fst c))); [|exact T]. intros y. symmetry. apply sweep1_size.
    + intros y k' L'. pose proof (sweep1_size c ptr y) as SZ. rewrite L' in SZ. cbn in SZ.
      destruct (lookup (mem (fst c)) y) as [k0|] eqn:L0; [|discriminate].
      pose proof (K _ _ L0) as B. injection SZ as SZ. unfold block_ok in *. rewrite SZ. exact B.
    + intros y I. unfold mapped. rewrite (frame_all _ _ (sweep1_frame c ptr)). apply M. right. exact I.
    + lia.
Qed.

Lemma fold_frame : forall l c, frame (fst c) (fst (fold_left sweep1 l c)).
Proof.
  induction l as [|x r IH]; intros c; [apply frame_refl|].
  cbn [fold_left]. apply (frame_trans _ (fst (sweep1 c x))); [apply sweep1_frame | apply IH].
Qed.
Lemma fold_size : forall l c x, option_map bsize (lookup (mem (fst (fold_left sweep1 l c))) x)
  = option_map bsize (lookup (mem (fst c)) x).
Proof.
  induction l as [|y r IH]; intros c x; [reflexivity|]. cbn [fold_left]. rewrite IH. apply sweep1_size.
Qed.
Lemma fold_lookup : forall l c x, NoDup l ->
  lookup (mem (fst (fold_left sweep1 l c))) x =
  if in_dec Z.eq_dec x l then option_map swept (lookup (mem (fst c)) x) else lookup (mem (fst c)) x.
Proof.
  induction l as [|y r IH]; intros c x N; [reflexivity|].
  inversion N as [|? ? NI N']; subst. cbn [fold_left]. rewrite IH by exact N'.
  rewrite sweep1_lookup.
  destruct (in_dec Z.eq_dec x r) as [I | I], (in_dec Z.eq_dec x (y :: r)) as [J | J],
    (Z.eq_dec x y) as [-> | NE]; try reflexivity; try contradiction; exfalso;
    cbn [In] in J; intuition congruence.
Qed.
Lemma fold_free : forall l c k a, NoDup l -> (forall x, In x l -> ~ In x (free (fst c) k)) ->
  (NoDup (free (fst c) k) -> NoDup (free (fst (fold_left sweep1 l c)) k)) /\
  (In a (free (fst (fold_left sweep1 l c)) k) <->
   In a (free (fst c) k) \/
   (In a l /\ exists b, lookup (mem (fst c)) a = Some b /\ bmark b = false /\ size_to_bucket (bsize b) = k)).
Proof.
  induction l as [|y r IH]; intros c k a N D.
  - cbn [fold_left]. split; [auto|]. split; [auto|]. intros [H | [[] _]]. exact H.
  - inversion N as [|? ? NI N']; subst. cbn [fold_left].
    assert (FR : forall x, In x (free (fst (sweep1 c y)) k) <->
              In x (free (fst c) k) \/ (x = y /\ exists b, lookup (mem (fst c)) y = Some b /\ bmark b = false
                 /\ size_to_bucket (bsize b) = k)).
    { intros x. rewrite sweep1_free. destruct (lookup (mem (fst c)) y) as [b|] eqn:L.
      - destruct (bmark b) eqn:M.
        + split; [auto|]. intros [H | [_ [b' [E [F _]]]]]; [exact H | congruence].
        + destruct (Nat.eqb k (size_to_bucket (bsize b))) eqn:E.
          * apply Nat.eqb_eq in E. cbn [In]. split.
            -- intros [H | H]; [|auto]. right. split; [congruence|]. exists b. auto.
            -- intros [H | [H _]]; [auto | left; congruence].
          * apply Nat.eqb_neq in E. split; [auto|].
            intros [H | [_ [b' [E' [_ F]]]]]; [exact H | congruence].
      - split; [auto|]. intros [H | [_ [b' [E _]]]]; [exact H | congruence]. }
    destruct (IH (sweep1 c y) k a N') as [A B].
    { intros x I J. apply FR in J. destruct J as [J | [-> _]]; [|contradiction].
      apply (D x); [right; exact I | exact J]. }
    split.
    + intros ND. apply A. rewrite sweep1_free. destruct (lookup (mem (fst c)) y) as [b|]; [|exact ND].
      destruct (bmark b); [exact ND|].
      destruct (Nat.eqb k (size_to_bucket (bsize b))); [|exact ND].
      constructor; [|exact ND]. apply D. left. reflexivity.
    + rewrite B, FR. split.
      * intros [[H | [-> H]] | [I [b [L H]]]].
        -- auto.
        -- right. split; [left; reflexivity | exact H].
        -- right. split; [right; exact I|]. rewrite sweep1_lookup in L.
           destruct (Z.eq_dec a y) as [-> | NE]; [contradiction|]. exists b. auto.
      * intros [H | [[-> | I] [b [L H]]]].
        -- auto.
        -- left. right. split; [reflexivity|]. exists b. auto.
        -- right. split; [exact I|]. exists b. rewrite sweep1_lookup.
           destruct (Z.eq_dec a y) as [-> | NE]; [contradiction|]. auto.
Qed.

(** all segments *)
Lemma fold_concat : forall ts c, fold_left (fun c l => fold_left sweep1 l c) ts c = fold_left sweep1 (concat ts) c.
Proof.
  induction ts as [|l r IH]; intros c; [reflexivity|].
  cbn [fold_left concat]. rewrite fold_left_app. apply IH.
Qed.
Lemma sweep_segs_fold : forall gs ts c,
  Forall2 (fun g l => tiling (mem (fst c)) (sstart g) (sbump g) l) gs ts ->
  (forall x k, lookup (mem (fst c)) x = Some k -> block_ok k) ->
  (forall x, In x (concat ts) -> mapped (fst c) x = true) ->
  sweep_segs gs c = Ok (fold_left sweep1 (concat ts) c).
Proof.
  induction gs as [|g gs IH]; intros ts c T K M; inversion T as [|? l ? tr T1 T2]; subst; [reflexivity|].
  cbn [sweep_segs concat]. rewrite (sweep_seg_fold l).
  - cbn [bind]. rewrite fold_left_app. apply IH.
    + apply (Forall2_mono (fun g l => tiling (mem (fst c)) (sstart g) (sbump g) l)); [|exact T2].
      intros h m TM. apply (tiling_ext (mem (fst c))); [|exact TM]. intros y. symmetry. apply fold_size.
    + intros y k' L'. pose proof (fold_size l c y) as SZ. rewrite L' in SZ. cbn in SZ.
      destruct (lookup (mem (fst c)) y) as [k0|] eqn:L0; [|discriminate].
      pose proof (K _ _ L0) as B. injection SZ as SZ. unfold block_ok in *. rewrite SZ. exact B.
    + intros y I. unfold mapped. rewrite (frame_all _ _ (fold_frame l c)). apply M.
      cbn [concat]. apply in_app_iff. auto.
  - exact T1.
  - exact K.
  - intros x I. apply M. cbn [concat]. apply in_app_iff. auto.
  - pose proof (tiling_le _ _ _ _ K T1). unfold seg_fuel.
    assert (Z.of_nat (length l) <= (sbump g - sstart g) / 16 + 1); [|lia].
    assert (Z.of_nat (length l) <= (sbump g - sstart g) / 16); [|lia].
    apply Z.div_le_lower_bound; lia.
Qed.

Lemma NoDup_app2 {A} (l1 l2 : list A) : NoDup l1 -> NoDup l2 -> (forall x, In x l1 -> ~ In x l2) -> NoDup (l1 ++ l2).
Proof.
  intros N1 N2 D. induction l1 as [|x r IH]; [exact N2|].
  inversion N1 as [|? ? NI N']; subst. cbn. constructor.
  - rewrite in_app_iff. intros [I | I]; [contradiction | apply (D x); [left; reflexivity | exact I]].
  - apply IH; [exact N'|]. intros y I. apply D. right. exact I.
Qed.
Lemma tiles_nodup m : forall gs ts, (forall x k, lookup m x = Some k -> block_ok k) ->
  (forall g, In g gs -> sstart g mod 16 = 0 /\ sbump g <= sstart g + ssize g) ->
  ForallOrdPairs (fun g h => disjoint (sstart g) (ssize g) (sstart h) (ssize h)) gs ->
  Forall2 (fun g l => tiling m (sstart g) (sbump g) l) gs ts -> NoDup (concat ts).
Proof.
  intros gs ts K. revert ts. induction gs as [|g gs IH]; intros ts S D T; inversion T as [|? l ? tr T1 T2]; subst; [constructor|].
  inversion D as [|? ? D1 D2]; subst. cbn [concat].
  destruct (S g (or_introl eq_refl)) as [A B].
  apply NoDup_app2.
  - apply (tiling_nodup m l _ _ K A T1).
  - apply IH; auto. intros h I. apply S. right. exact I.
  - intros x I J. destruct (tiling_in m l _ _ x K A T1 I) as [_ [C [k [L E]]]].
    destruct (K _ _ L) as [F _].
    apply in_concat in J. destruct J as [l' [Jl Jx]].
    destruct (Forall2_in_r _ _ _ _ T2 Jl) as [h [Ih Th]].
    destruct (S h (or_intror Ih)) as [A' B'].
    destruct (tiling_in m l' _ _ x K A' Th Jx) as [_ [C' [k' [L' E']]]].
    rewrite L in L'. injection L' as <-.
    rewrite Forall_forall in D1. specialize (D1 h Ih). unfold disjoint in D1. lia.
Qed.
Lemma tiles_hdr s ts x : wf s ts -> In x (concat ts) -> exists b, lookup (mem s) x = Some b.
Proof.
  intros W I. apply in_concat in I. destruct I as [l [Il Ix]].
  destruct (Forall2_in_r _ _ _ _ (w_tiles _ _ W) Il) as [g [Ig T]].
  destruct (w_seg _ _ W g Ig) as [_ [A _]].
  destruct (tiling_in _ _ _ _ _ (w_blk _ _ W) A T Ix) as [_ [_ [k [L _]]]]. eauto.
Qed.

Lemma sweep_tag t o : tag_of (sweep_fn t o) = tag_of o.
Proof. destruct t, o; reflexivity. Qed.
Lemma swept_facts b : bmark (swept b) = false /\ btag (swept b) = btag b /\ bsize (swept b) = bsize b
  /\ tag_of (bobj (swept b)) = tag_of (bobj b) /\ (bmark b = true -> bobj (swept b) = bobj b).
Proof.
  unfold swept. destruct (bmark b) eqn:M; cbn.
  - repeat split.
  - rewrite sweep_tag. repeat split; auto. intros; discriminate.
Qed.

Lemma sweep_phase_spec s ts : wf s ts -> exists s',
  sweep_phase s = Ok s' /\ wf s' ts /\ unmarked s' /\ frame s s' /\
  (forall a, lookup (mem s') a = option_map swept (lookup (mem s) a)) /\
  (forall k a, In a (free s' k) <->
     exists b, lookup (mem s) a = Some b /\ bmark b = false /\ size_to_bucket (bsize b) = k).
Proof.
  intros W. unfold sweep_phase.
  set (c0 := (with_free s (fun _ => []), 0)).
  assert (ND : NoDup (concat ts)).
  { apply (tiles_nodup (mem s) (all_segs s)); [exact (w_blk _ _ W) | | exact (w_disj _ _ W) | exact (w_tiles _ _ W)].
    intros g I. destruct (w_seg _ _ W g I) as [_ [A [B _]]]. auto. }
  rewrite (sweep_segs_fold (all_segs s) ts c0).
  2: exact (w_tiles _ _ W). 2: exact (w_blk _ _ W).
  2: { intros x I. destruct (tiles_hdr s ts x W I) as [b L].
       unfold mapped. change (all_segs (fst c0)) with (all_segs s). exact (header_mapped s ts W x b L). }
  cbn [bind].
  pose proof (fold_frame (concat ts) c0) as FR.
  pose proof (fun x => fold_lookup (concat ts) c0 x ND) as FL.
  pose proof (fun k a => fold_free (concat ts) c0 k a ND (fun x _ H => H)) as FF.
  destruct (fold_left sweep1 (concat ts) c0) as [s1 tot] eqn:EF. cbn [fst] in *.
  eexists. split; [reflexivity|].
  assert (LK : forall a, lookup (mem s1) a = option_map swept (lookup (mem s) a)).
  { intros a. rewrite FL. change (mem (fst c0)) with (mem s).
    destruct (in_dec Z.eq_dec a (concat ts)) as [I | I]; [reflexivity|].
    destruct (lookup (mem s) a) as [b|] eqn:L; [|reflexivity].
    exfalso. apply I. exact (w_dom _ _ W _ _ L). }
  assert (FC : forall k a, In a (free s1 k) <->
     exists b, lookup (mem s) a = Some b /\ bmark b = false /\ size_to_bucket (bsize b) = k).
  { intros k a. destruct (FF k a) as [_ F]. rewrite F. cbn [fst with_free free].
    change (mem (fst c0)) with (mem s). split.
    - intros [[] | [_ H]]. exact H.
    - intros [b [L H]]. right. split; [exact (w_dom _ _ W _ _ L) | eauto]. }
  assert (AS : all_segs s1 = all_segs s) by (rewrite (frame_all _ _ FR); reflexivity).
  assert (INV : forall a b, lookup (mem s1) a = Some b -> exists b0, lookup (mem s) a = Some b0 /\ b = swept b0).
  { intros a b L. rewrite LK in L. destruct (lookup (mem s) a) as [b0|]; [|discriminate].
    injection L as <-. eauto. }
  split; [|split; [|split; [|split]]].
  - constructor; cbn [mem segs cur heap_lo heap_hi free]; unfold all_segs in *; cbn [segs cur] in *; rewrite ?AS.
    + apply (Forall2_mono (fun g l => tiling (mem s) (sstart g) (sbump g) l)); [|exact (w_tiles _ _ W)].
      intros g l T. apply (tiling_ext (mem s)); [|exact T]. intros x. rewrite LK.
      destruct (lookup (mem s) x) as [b|]; [|reflexivity]. cbn. f_equal. symmetry. apply swept_facts.
    + intros a b L. destruct (INV a b L) as [b0 [L0 _]]. exact (w_dom _ _ W _ _ L0).
    + rewrite <- (f_lo _ _ FR), <- (f_hi _ _ FR). exact (w_seg _ _ W).
    + exact (w_disj _ _ W).
    + intros a b L. destruct (INV a b L) as [b0 [L0 ->]]. pose proof (w_blk _ _ W _ _ L0) as K.
      destruct (swept_facts b0) as [_ [_ [E _]]]. unfold block_ok in *. rewrite E. exact K.
    + intros a b L. destruct (INV a b L) as [b0 [L0 ->]]. destruct (swept_facts b0) as [_ [E1 [_ [E2 _]]]].
      rewrite E1, E2. exact (w_tag _ _ W _ _ L0).
    + intros k a I. apply FC in I. destruct I as [b [L [_ E]]]. exists (swept b). rewrite LK, L.
      split; [reflexivity|]. destruct (swept_facts b) as [_ [_ [E' _]]]. rewrite E'. exact E.
    + intros k. destruct (FF k 0) as [A _]. apply A. constructor.
    + rewrite <- (f_hi _ _ FR). exact (w_hi _ _ W).
  - intros a b L. cbn [mem] in L. destruct (INV a b L) as [b0 [_ ->]]. apply swept_facts.
  - constructor; cbn; [apply (f_segs _ _ FR) | apply (f_cur _ _ FR) | apply (f_lo _ _ FR) | apply (f_hi _ _ FR)].
  - exact LK.
  - exact FC.
Qed.

(** * a whole collection *)
Lemma run_gc_spec s ts r s' : wf s ts -> unmarked s -> run_gc r s = Ok s' ->
  wf s' ts /\ unmarked s' /\ frame s s' /\ since s' = 0 /\
  (forall a, hdr s' a <-> hdr s a) /\
  (forall a b, creach s r a -> lookup (mem s) a = Some b -> lookup (mem s') a = Some b) /\
  (forall a b, lookup (mem s) a = Some b -> exists b', lookup (mem s') a = Some b' /\ bsize b' = bsize b
      /\ btag b' = btag b) /\
  (forall k a, In a (free s' k) <->
     ~ creach s r a /\ exists b, lookup (mem s) a = Some b /\ size_to_bucket (bsize b) = k).
Proof.
  intros W U H. unfold run_gc in H.
  destruct (mark_phase r s) as [s1| | | |] eqn:E; try discriminate. cbn [bind] in H.
  destruct (mark_phase_marks s ts r s1 W U E) as [Q M].
  assert (W1 : wf s1 ts) by exact (meq_wf _ _ _ Q W).
  destruct (sweep_phase_spec s1 ts W1) as [s2 [E2 [W2 [U2 [F2 [L2 FR2]]]]]].
  rewrite E2 in H. cbn [bind] in H. injection H as <-.
  assert (LK : forall a b, lookup (mem s) a = Some b -> exists b1, lookup (mem s1) a = Some b1 /\
     lookup (mem s2) a = Some (swept b1) /\ btag b1 = btag b /\ bsize b1 = bsize b /\ bobj b1 = bobj b).
  { intros a b L. destruct (meq_lookup _ _ _ _ Q L) as [b1 [L1 EQ]]. exists b1.
    split; [exact L1|]. split; [rewrite L2, L1; reflexivity | exact EQ]. }
  split; [|split; [|split; [|split; [|split; [|split; [|split]]]]]].
  - destruct W2. constructor; assumption.
  - exact U2.
  - destruct F2 as [A B C D]. destruct Q as [_ Q1 Q2 Q3 Q4 _ _].
    constructor; cbn; congruence.
  - reflexivity.
  - intros a. rewrite (meq_hdr _ _ a Q). unfold hdr. cbn [mem]. rewrite L2.
    destruct (lookup (mem s1) a); cbn; split; congruence.
  - intros a b C L. cbn [mem]. destruct (LK a b L) as [b1 [L1 [L3 [T [S O]]]]].
    rewrite L3. f_equal. apply M in C. destruct C as [b1' [L1' MK]]. rewrite L1 in L1'. injection L1' as <-.
    unfold swept. rewrite MK. unfold set_mark. rewrite T, S, O. rewrite <- (U _ _ L). destruct b; reflexivity.
  - intros a b L. destruct (LK a b L) as [b1 [L1 [L3 [T [S O]]]]]. exists (swept b1). split; [exact L3|].
    destruct (swept_facts b1) as [_ [A [B _]]]. split; congruence.
  - intros k a. cbn [free]. rewrite FR2. split.
    + intros [b1 [L1 [MK SZ]]]. destruct (meq_lookup' _ _ _ _ Q L1) as [b [L [T [S O]]]]. split.
      * intros C. apply M in C. destruct C as [b' [L' MK']]. congruence.
      * exists b. split; [exact L|]. rewrite S. exact SZ.
    + intros [NC [b [L SZ]]]. destruct (LK a b L) as [b1 [L1 [L3 [T [S O]]]]]. exists b1.
      split; [exact L1|]. split; [|rewrite S; exact SZ].
      destruct (bmark b1) eqn:MK; [|reflexivity]. exfalso. apply NC. apply M. exists b1. auto.
Qed.
