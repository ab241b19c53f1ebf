(** Proofs about GcModel.v: the heap invariant, marking, sweeping. *)
From Verif Require Import Base GcModel GcSpec.
From Coq Require Import Lia.

(** * finite maps *)
Lemma lookup_store_eq m a b : lookup (store m a b) a = Some b.
Proof.
  induction m as [|[k c] r IH]; cbn [store lookup].
  - rewrite Z.eqb_refl. reflexivity.
  - destruct (k =? a) eqn:E; cbn [lookup]; rewrite E; [reflexivity | exact IH].
Qed.
Lemma lookup_store_ne m a b x : x <> a -> lookup (store m a b) x = lookup m x.
Proof.
  intros N. induction m as [|[k c] r IH]; cbn [store lookup].
  - destruct (a =? x) eqn:E; [apply Z.eqb_eq in E; congruence | reflexivity].
  - destruct (k =? a) eqn:E; cbn [lookup].
    + apply Z.eqb_eq in E. subst k. destruct (a =? x) eqn:F; [apply Z.eqb_eq in F; congruence | reflexivity].
    + destruct (k =? x); [reflexivity | exact IH].
Qed.
Lemma lookup_store m a b x : lookup (store m a b) x = if Z.eq_dec x a then Some b else lookup m x.
Proof.
  destruct (Z.eq_dec x a) as [-> | N]; [apply lookup_store_eq | apply lookup_store_ne; exact N].
Qed.

(** * the invariant *)
Definition block_ok (b : block) : Prop :=
  16 <= bsize b < 2 ^ 32 /\ bsize b mod 16 = 0 /\
  (bsize b <= 128 -> class_size (size_to_bucket (bsize b)) = bsize b).

(** the blocks [l] lie one after the other from [a] up to [b] *)
Fixpoint tiling (m : list (Z * block)) (a b : Z) (l : list Z) : Prop :=
  match l with
  | [] => a = b
  | x :: r => x = a /\ exists k, lookup m a = Some k /\ tiling m (a + (HEADER + bsize k)) b r
  end.

Record wf (s : gc) (ts : list (list Z)) : Prop := {
  w_tiles : Forall2 (fun g l => tiling (mem s) (sstart g) (sbump g) l) (all_segs s) ts;
  w_dom : forall a b, lookup (mem s) a = Some b -> In a (concat ts);
  w_seg : forall g, In g (all_segs s) ->
    0 < sstart g /\ sstart g mod 16 = 0 /\ sbump g <= sstart g + ssize g /\
    heap_lo s <= sstart g /\ sstart g + ssize g <= heap_hi s;
  w_disj : ForallOrdPairs (fun g h => disjoint (sstart g) (ssize g) (sstart h) (ssize h)) (all_segs s);
  w_blk : forall a b, lookup (mem s) a = Some b -> block_ok b;
  w_tag : forall a b, lookup (mem s) a = Some b -> btag b = tag_of (bobj b);
  w_free : forall k a, In a (free s k) -> exists b, lookup (mem s) a = Some b /\ size_to_bucket (bsize b) = k;
  w_nodup : forall k, NoDup (free s k);
  w_hi : exists g, In g (all_segs s) /\ heap_hi s = sstart g + ssize g /\ 16 <= ssize g
}.
Definition unmarked (s : gc) : Prop := forall a b, lookup (mem s) a = Some b -> bmark b = false.
Definition hdr (s : gc) (a : Z) : Prop := lookup (mem s) a <> None.
Definition marked (s : gc) (a : Z) : Prop := exists b, lookup (mem s) a = Some b /\ bmark b = true.

(** ** geometry of tilings *)
Lemma tiling_le m : forall l a b, (forall x k, lookup m x = Some k -> block_ok k) ->
  tiling m a b l -> a + 32 * Z.of_nat (length l) <= b.
Proof.
  induction l as [|x r IH]; intros a b K H.
  - cbn in H. subst. cbn. lia.
  - destruct H as [-> [k [Lk Hr]]]. specialize (IH _ _ K Hr).
    destruct (K _ _ Lk) as [A _]. unfold HEADER in IH. cbn [length]. lia.
Qed.
(** every tile is a block lying inside the tiled range, 16-byte aligned *)
Lemma tiling_in m : forall l a b x, (forall x k, lookup m x = Some k -> block_ok k) ->
  a mod 16 = 0 -> tiling m a b l -> In x l ->
  x mod 16 = 0 /\ a <= x /\ exists k, lookup m x = Some k /\ x + (16 + bsize k) <= b.
Proof.
  induction l as [|y r IH]; intros a b x K A H I; [destruct I|].
  destruct H as [-> [k [Lk Hr]]].
  destruct (K _ _ Lk) as [B [C _]].
  pose proof (tiling_le m r _ _ K Hr) as L. unfold HEADER in *.
  destruct I as [-> | I].
  - split; [exact A | split; [lia|]]. exists k. split; [exact Lk | lia].
  - destruct (IH (a + (16 + bsize k)) b x K) as [D [E [k' [F G]]]]; auto.
    { rewrite Z.add_mod, (Z.add_mod 16), A, C by lia. reflexivity. }
    split; [exact D | split; [lia|]]. exists k'. auto.
Qed.
Lemma tiling_ext m m' : forall l a b,
  (forall x, option_map bsize (lookup m x) = option_map bsize (lookup m' x)) ->
  tiling m a b l -> tiling m' a b l.
Proof.
  induction l as [|x r IH]; intros a b E H; [exact H|].
  destruct H as [-> [k [Lk Hr]]]. split; [reflexivity|].
  specialize (E a) as Ea. rewrite Lk in Ea. cbn in Ea.
  destruct (lookup m' a) as [k'|] eqn:Lk'; [|discriminate].
  exists k'. split; [reflexivity|]. injection Ea as Ea. rewrite <- Ea. apply IH; assumption.
Qed.
Lemma tiling_nodup m : forall l a b, (forall x k, lookup m x = Some k -> block_ok k) ->
  a mod 16 = 0 -> tiling m a b l -> NoDup l.
Proof.
  induction l as [|x r IH]; intros a b K A H; [constructor|].
  destruct H as [-> [k [Lk Hr]]]. destruct (K _ _ Lk) as [B [C _]]. unfold HEADER in Hr.
  assert (A' : (a + (16 + bsize k)) mod 16 = 0)
    by (rewrite Z.add_mod, (Z.add_mod 16), A, C by lia; reflexivity).
  constructor.
  - intros I. destruct (tiling_in m r _ _ a K A' Hr I) as [_ [D _]]. lia.
  - apply (IH _ _ K A' Hr).
Qed.
(** two tiles of the same range do not overlap *)
Lemma tiling_disjoint m : forall l a b x y kx ky, (forall x k, lookup m x = Some k -> block_ok k) ->
  a mod 16 = 0 -> tiling m a b l -> In x l -> In y l -> x <> y ->
  lookup m x = Some kx -> lookup m y = Some ky ->
  disjoint x (16 + bsize kx) y (16 + bsize ky).
Proof.
  induction l as [|z r IH]; intros a b x y kx ky K A H Ix Iy N Lx Ly; [destruct Ix|].
  destruct H as [-> [k [Lk Hr]]]. destruct (K _ _ Lk) as [B [C _]]. unfold HEADER in Hr.
  assert (A' : (a + (16 + bsize k)) mod 16 = 0)
    by (rewrite Z.add_mod, (Z.add_mod 16), A, C by lia; reflexivity).
  destruct Ix as [-> | Ix]; destruct Iy as [-> | Iy].
  - congruence.
  - rewrite Lx in Lk. injection Lk as <-. destruct (tiling_in m r _ _ y K A' Hr Iy) as [_ [D _]].
    left. lia.
  - rewrite Ly in Lk. injection Lk as <-. destruct (tiling_in m r _ _ x K A' Hr Ix) as [_ [D _]].
    right. lia.
  - apply (IH _ _ _ _ _ _ K A' Hr Ix Iy N Lx Ly).
Qed.

Lemma Forall2_in_r {A B} (P : A -> B -> Prop) l1 l2 y :
  Forall2 P l1 l2 -> In y l2 -> exists x, In x l1 /\ P x y.
Proof.
  induction 1 as [|a b r1 r2 H HR IH]; intros I; [destruct I|].
  destruct I as [-> | I].
  - exists a. split; [left; reflexivity | exact H].
  - destruct (IH I) as [x [J Q]]. exists x. split; [right; exact J | exact Q].
Qed.

Lemma Forall2_mono {A B} (P Q : A -> B -> Prop) l1 l2 :
  (forall x y, P x y -> Q x y) -> Forall2 P l1 l2 -> Forall2 Q l1 l2.
Proof. intros H. induction 1; constructor; auto. Qed.

Section Geometry.
Context (s : gc) (ts : list (list Z)) (W : wf s ts).

(** the segment a header lies in *)
Lemma header_place a b : lookup (mem s) a = Some b ->
  exists g l, In g (all_segs s) /\ In l ts /\ In a l /\ tiling (mem s) (sstart g) (sbump g) l /\
    a mod 16 = 0 /\ sstart g <= a /\ a + (16 + bsize b) <= sbump g.
Proof.
  intros L. pose proof (w_dom _ _ W _ _ L) as I. apply in_concat in I. destruct I as [l [Il Ia]].
  destruct (Forall2_in_r _ _ _ _ (w_tiles _ _ W) Il) as [g [Ig T]].
  destruct (w_seg _ _ W g Ig) as [_ [A _]].
  destruct (tiling_in _ _ _ _ _ (w_blk _ _ W) A T Ia) as [B [C [k [D E]]]].
  rewrite L in D. injection D as <-.
  exists g, l. repeat split; auto.
Qed.
Lemma header_mapped a b : lookup (mem s) a = Some b -> mapped s a = true.
Proof.
  intros L. destruct (header_place a b L) as [g [l [Ig [_ [_ [_ [_ [A B]]]]]]]].
  destruct (w_blk _ _ W _ _ L) as [C _]. destruct (w_seg _ _ W g Ig) as [_ [_ [D _]]].
  unfold mapped. apply existsb_exists. exists g. split; [exact Ig|].
  apply andb_true_intro. split; apply Z.leb_le; lia.
Qed.
Lemma land15 a : Z.land a 15 = a mod 16.
Proof. change 15 with (Z.ones 4). rewrite Z.land_ones by lia. reflexivity. Qed.
Lemma header_range a b : lookup (mem s) a = Some b ->
  0 < a /\ heap_lo s <= a /\ a + 32 <= heap_hi s /\ a mod 16 = 0.
Proof.
  intros L. destruct (header_place a b L) as [g [l [Ig [_ [_ [_ [AL [A B]]]]]]]].
  destruct (w_blk _ _ W _ _ L) as [C _].
  destruct (w_seg _ _ W g Ig) as [D [_ [E [F G]]]]. repeat split; try lia.
Qed.
Lemma valid_header a b : lookup (mem s) a = Some b -> valid_block s a = Ok (Some b).
Proof.
  intros L. destruct (header_range a b L) as [A [B [C D]]].
  unfold valid_block, read_header. rewrite (header_mapped a b L), land15, D, L.
  replace (heap_lo s <=? a) with true by (symmetry; apply Z.leb_le; lia).
  replace (a + 16 <=? heap_hi s) with true by (symmetry; apply Z.leb_le; lia).
  reflexivity.
Qed.
Lemma valid_lookup a o : valid_block s a = Ok o -> o = lookup (mem s) a.
Proof.
  intros H. destruct (lookup (mem s) a) as [b|] eqn:L.
  - rewrite (valid_header a b L) in H. congruence.
  - unfold valid_block, read_header in H. rewrite L in H.
    destruct ((heap_lo s <=? a) && (a + 16 <=? heap_hi s) && (Z.land a 15 =? 0)); [|congruence].
    destruct (mapped s a); congruence.
Qed.
(** blocks never overlap *)
Lemma headers_disjoint a b ka kb : lookup (mem s) a = Some ka -> lookup (mem s) b = Some kb ->
  a <> b -> disjoint a (16 + bsize ka) b (16 + bsize kb).
Proof.
  intros La Lb N.
  destruct (header_place a ka La) as [g [l [Ig [Il [Ia [T [_ [A1 A2]]]]]]]].
  destruct (header_place b kb Lb) as [h [m [Ih [Im [Ib [U [_ [B1 B2]]]]]]]].
  destruct (w_seg _ _ W g Ig) as [_ [GA [G1 _]]]. destruct (w_seg _ _ W h Ih) as [_ [HA [H1 _]]].
  destruct (ForallOrdPairs_In (w_disj _ _ W) g h Ig Ih) as [E | [D | D]].
  - subst h.
    (* same segment: both tilings of the same range are the same list *)
    assert (S : forall r1 r2 x y, tiling (mem s) x y r1 -> tiling (mem s) x y r2 -> r1 = r2).
    { clear - W. induction r1 as [|p r1 IH]; intros [|q r2] x y T1 T2; [reflexivity| | |].
      - cbn in T1. subst. destruct T2 as [-> [k [L T2]]].
        pose proof (tiling_le _ _ _ _ (w_blk _ _ W) T2). destruct (w_blk _ _ W _ _ L). unfold HEADER in *. lia.
      - cbn in T2. subst. destruct T1 as [-> [k [L T1]]].
        pose proof (tiling_le _ _ _ _ (w_blk _ _ W) T1). destruct (w_blk _ _ W _ _ L). unfold HEADER in *. lia.
      - destruct T1 as [-> [k [L T1]]]. destruct T2 as [-> [k' [L' T2]]].
        rewrite L in L'. injection L' as <-. f_equal. apply (IH r2 _ _ T1 T2). }
    rewrite (S _ _ _ _ U T) in Ib.
    apply (tiling_disjoint _ _ _ _ _ _ _ _ (w_blk _ _ W) GA T Ia Ib N La Lb).
  - unfold disjoint in *. lia.
  - unfold disjoint in *. lia.
Qed.
End Geometry.

(** * marking *)

(** equal except for the mark bits *)
Definition strip (b : block) : block := set_mark b false.
Record meq (s s' : gc) : Prop := {
  q_mem : forall a, option_map strip (lookup (mem s) a) = option_map strip (lookup (mem s') a);
  q_segs : segs s = segs s'; q_cur : cur s = cur s';
  q_lo : heap_lo s = heap_lo s'; q_hi : heap_hi s = heap_hi s';
  q_free : free s = free s'; q_len : length (mem s) = length (mem s')
}.
Lemma meq_refl s : meq s s.
Proof. constructor; reflexivity. Qed.
Lemma meq_trans s1 s2 s3 : meq s1 s2 -> meq s2 s3 -> meq s1 s3.
Proof.
  intros [A B C D E F G] [A' B' C' D' E' F' G']. constructor; congruence.
Qed.
Lemma meq_lookup s s' a b : meq s s' -> lookup (mem s) a = Some b ->
  exists b', lookup (mem s') a = Some b' /\ btag b' = btag b /\ bsize b' = bsize b /\ bobj b' = bobj b.
Proof.
  intros Q L. pose proof (q_mem _ _ Q a) as E. rewrite L in E.
  destruct (lookup (mem s') a) as [b'|]; [|discriminate].
  cbn in E. injection E as E1 E2 E3. exists b'. repeat split; congruence.
Qed.
Lemma meq_lookup' s s' a b : meq s s' -> lookup (mem s') a = Some b ->
  exists b', lookup (mem s) a = Some b' /\ btag b' = btag b /\ bsize b' = bsize b /\ bobj b' = bobj b.
Proof.
  intros Q L. pose proof (q_mem _ _ Q a) as E. rewrite L in E.
  destruct (lookup (mem s) a) as [b'|]; [|discriminate].
  cbn in E. injection E as E1 E2 E3. exists b'. repeat split; congruence.
Qed.
Lemma meq_hdr s s' a : meq s s' -> hdr s a <-> hdr s' a.
Proof.
  intros Q. unfold hdr. pose proof (q_mem _ _ Q a) as E.
  destruct (lookup (mem s) a), (lookup (mem s') a); cbn in E; try discriminate; split; congruence.
Qed.
Lemma meq_wf s s' ts : meq s s' -> wf s ts -> wf s' ts.
Proof.
  intros Q W. assert (AS : all_segs s' = all_segs s)
    by (unfold all_segs; rewrite (q_segs _ _ Q), (q_cur _ _ Q); reflexivity).
  constructor; rewrite ?AS.
  - apply (Forall2_mono (fun g l => tiling (mem s) (sstart g) (sbump g) l)); [|exact (w_tiles _ _ W)].
    intros g l T. apply (tiling_ext (mem s)); [|exact T].
    intros x. pose proof (q_mem _ _ Q x) as E.
    destruct (lookup (mem s) x), (lookup (mem s') x); cbn in E |- *; try discriminate; [injection E as E1 E2 E3|]; congruence.
  - intros a b L. destruct (meq_lookup' _ _ _ _ Q L) as [b' [L' _]]. exact (w_dom _ _ W _ _ L').
  - rewrite <- (q_lo _ _ Q), <- (q_hi _ _ Q). exact (w_seg _ _ W).
  - exact (w_disj _ _ W).
  - intros a b L. destruct (meq_lookup' _ _ _ _ Q L) as [b' [L' [_ [E _]]]].
    pose proof (w_blk _ _ W _ _ L') as K. unfold block_ok in *. rewrite E in K. exact K.
  - intros a b L. destruct (meq_lookup' _ _ _ _ Q L) as [b' [L' [E1 [_ E2]]]].
    rewrite <- E1, <- E2. exact (w_tag _ _ W _ _ L').
  - intros k a I. rewrite <- (q_free _ _ Q) in I. destruct (w_free _ _ W _ _ I) as [b [L E]].
    destruct (meq_lookup _ _ _ _ Q L) as [b' [L' [_ [E' _]]]]. exists b'. split; [exact L'|].
    rewrite E'. exact E.
  - rewrite <- (q_free _ _ Q). exact (w_nodup _ _ W).
  - rewrite <- (q_hi _ _ Q). exact (w_hi _ _ W).
Qed.

(** number of unmarked blocks *)
Fixpoint count (m : list (Z * block)) : nat :=
  match m with
  | [] => 0%nat
  | (_, b) :: r => if bmark b then count r else S (count r)
  end.
Lemma count_le m : (count m <= length m)%nat.
Proof. induction m as [|[k b] r IH]; cbn; [lia|]. destruct (bmark b); lia. Qed.
Lemma count_mark m a b : lookup m a = Some b -> bmark b = false ->
  S (count (store m a (set_mark b true))) = count m.
Proof.
  induction m as [|[k c] r IH]; cbn [lookup store]; [discriminate|].
  destruct (k =? a); intros L M.
  - injection L as ->. cbn [count bmark set_mark]. rewrite M. reflexivity.
  - cbn [count]. specialize (IH L M). destruct (bmark c); [exact IH | rewrite IH; reflexivity].
Qed.
Lemma length_store_in m a b c : lookup m a = Some c -> length (store m a b) = length m.
Proof.
  induction m as [|[k d] r IH]; cbn [lookup store]; [discriminate|].
  destruct (k =? a); intros L; cbn [length]; [reflexivity | rewrite IH by exact L; reflexivity].
Qed.

(** what one round of pushes over the words [ps] does *)
Record pushed (c : gc * list Z) (ps : list Z) (c' : gc * list Z) : Prop := {
  p_meq : meq (fst c) (fst c');
  p_mark : forall x, marked (fst c') x <-> marked (fst c) x \/ (In (x + 16) ps /\ hdr (fst c) x);
  p_stk : forall x, In x (snd c') <-> In x (snd c) \/ (marked (fst c') x /\ ~ marked (fst c) x);
  p_count : (count (mem (fst c')) + length (snd c') = count (mem (fst c)) + length (snd c))%nat
}.
Lemma marked_dec s x : marked s x \/ ~ marked s x.
Proof.
  unfold marked. destruct (lookup (mem s) x) as [b|].
  - destruct (bmark b) eqn:M; [left; eauto | right; intros [b' [E F]]; congruence].
  - right. intros [b' [E _]]. discriminate.
Qed.
Lemma marked_hdr s x : marked s x -> hdr s x.
Proof. intros [b [L _]]. unfold hdr. congruence. Qed.

Lemma pushed_none c : forall p, (~ hdr (fst c) (p - 16)) -> pushed c [p] c.
Proof.
  intros p N. constructor.
  - apply meq_refl.
  - intros x. split; [auto|]. intros [H | [[E | []] H]]; [exact H|].
    exfalso. apply N. replace (p - 16) with x by lia. exact H.
  - intros x. split; [auto|]. intros [H | [A B]]; [exact H | contradiction].
  - reflexivity.
Qed.
Lemma push_pushed s ts stk a c' : wf s ts -> push_if_unmarked a (s, stk) = Ok c' ->
  pushed (s, stk) [a + 16] c'.
Proof.
  intros W H. unfold push_if_unmarked in H.
  destruct (valid_block s a) as [o| | | |] eqn:V; try discriminate.
  apply (valid_lookup s ts W) in V. cbn [bind] in H. subst o.
  destruct (lookup (mem s) a) as [b|] eqn:L.
  - destruct (bmark b) eqn:M; injection H as <-.
    + constructor; cbn [fst snd].
      * apply meq_refl.
      * intros x. split; [auto|]. intros [H | [[E | []] H]]; [exact H|].
        assert (x = a) by lia. subst x. exists b. auto.
      * intros x. split; [auto|]. intros [H | [A B]]; [exact H | contradiction].
      * reflexivity.
    + constructor; cbn [fst snd].
      * constructor; try reflexivity; cbn [mem with_mem].
        -- intros x. rewrite lookup_store. destruct (Z.eq_dec x a) as [-> | N]; [|reflexivity].
           rewrite L. reflexivity.
        -- symmetry. apply length_store_in with (c := b). exact L.
      * intros x. unfold marked, hdr. cbn [mem with_mem]. rewrite lookup_store.
        destruct (Z.eq_dec x a) as [-> | N].
        -- split; [intros _ | intros _].
           ++ right. split; [left; lia | congruence].
           ++ exists (set_mark b true). auto.
        -- split; [auto|]. intros [H | [[E | []] _]]; [exact H | exfalso; lia].
      * intros x. unfold marked. cbn [mem with_mem In]. rewrite lookup_store.
        destruct (Z.eq_dec x a) as [-> | N].
        -- split; [intros _ | auto]. right. split; [exists (set_mark b true); auto|].
           intros [b' [E F]]. congruence.
        -- split.
           ++ intros [E | I]; [congruence | auto].
           ++ intros [I | [A B]]; [auto | contradiction].
      * cbn [length mem with_mem]. pose proof (count_mark _ _ _ L M). lia.
  - injection H as <-. apply pushed_none. replace (a + 16 - 16) with a by lia.
    unfold hdr. cbn [fst]. congruence.
Qed.
Lemma trace_ptr_pushed s ts stk p c' : wf s ts -> trace_ptr p (s, stk) = Ok c' ->
  pushed (s, stk) [p] c'.
Proof.
  intros W H. unfold trace_ptr, HEADER in H. cbn [fst] in H.
  destruct (p =? 0) eqn:E.
  - injection H as <-. apply Z.eqb_eq in E. subst p. apply pushed_none. cbn [fst].
    intros K. unfold hdr in K. destruct (lookup (mem s) (0 - 16)) as [b|] eqn:L; [|congruence].
    destruct (header_range s ts W _ _ L). lia.
  - destruct (valid_block s (p - 16)) as [o| | | |] eqn:V; try discriminate. cbn [bind] in H.
    apply (valid_lookup s ts W) in V. destruct o as [b|].
    + apply (push_pushed s ts) in H; [|exact W]. replace (p - 16 + 16) with p in H by lia. exact H.
    + injection H as <-. apply pushed_none. unfold hdr. cbn [fst]. congruence.
Qed.
Lemma mark_if_pushed s ts stk p c' : wf s ts -> mark_if_valid_block p (s, stk) = Ok c' ->
  pushed (s, stk) [p] c'.
Proof.
  intros W H. unfold mark_if_valid_block, HEADER in H. cbn [fst] in H.
  assert (HR : hdr s (p - 16) -> p <> 0 /\ heap_lo s <= p /\ p < heap_hi s /\ (p - 16) mod 16 = 0).
  { unfold hdr. destruct (lookup (mem s) (p - 16)) as [b|] eqn:L; [intros _|congruence].
    destruct (header_range s ts W _ _ L) as [A [B [C D]]]. repeat split; try lia. }
  destruct (p =? 0) eqn:E.
  - injection H as <-. apply pushed_none. cbn [fst]. intros K. apply HR in K. lia.
  - destruct ((p <? heap_lo s) || (heap_hi s <=? p)) eqn:F.
    + injection H as <-. apply pushed_none. cbn [fst]. intros K. apply HR in K.
      apply orb_prop in F. destruct F as [F | F]; [apply Z.ltb_lt in F | apply Z.leb_le in F]; lia.
    + destruct (negb (Z.land (p - 16) 15 =? 0)) eqn:G.
      * injection H as <-. apply pushed_none. cbn [fst]. intros K. apply HR in K.
        rewrite land15 in G. destruct K as [_ [_ [_ K]]]. rewrite K in G. discriminate.
      * destruct (read_header s (p - 16)) as [o| | | |] eqn:V; try discriminate. cbn [bind] in H.
        unfold read_header in V. destruct (mapped s (p - 16)); [|discriminate]. injection V as <-.
        destruct (lookup (mem s) (p - 16)) as [b|] eqn:L.
        -- apply (push_pushed s ts) in H; [|exact W]. replace (p - 16 + 16) with p in H by lia. exact H.
        -- injection H as <-. apply pushed_none. unfold hdr. cbn [fst]. congruence.
Qed.

Lemma pushed_nil c : pushed c [] c.
Proof.
  constructor.
  - apply meq_refl.
  - intros x. split; [auto|]. intros [H | [[] _]]. exact H.
  - intros x. split; [auto|]. intros [H | [A B]]; [exact H | contradiction].
  - reflexivity.
Qed.
Lemma pushed_app c ps c1 qs c2 : pushed c ps c1 -> pushed c1 qs c2 -> pushed c (ps ++ qs) c2.
Proof.
  intros A B. constructor.
  - apply (meq_trans _ (fst c1)); [apply A | apply B].
  - intros x. rewrite (p_mark _ _ _ B), (p_mark _ _ _ A), in_app_iff,
      <- (meq_hdr _ _ x (p_meq _ _ _ A)). tauto.
  - intros x. rewrite (p_stk _ _ _ B), (p_stk _ _ _ A).
    assert (M1 : marked (fst c) x -> marked (fst c1) x) by (intros; apply (p_mark _ _ _ A); auto).
    assert (M2 : marked (fst c1) x -> marked (fst c2) x) by (intros; apply (p_mark _ _ _ B); auto).
    destruct (marked_dec (fst c1) x); tauto.
  - rewrite (p_count _ _ _ B). apply (p_count _ _ _ A).
Qed.
Lemma each_pushed (f : Z -> gc * list Z -> res (gc * list Z)) ts :
  (forall s stk p c', wf s ts -> f p (s, stk) = Ok c' -> pushed (s, stk) [p] c') ->
  forall ps s stk c', wf s ts -> each f ps (s, stk) = Ok c' -> pushed (s, stk) ps c'.
Proof.
  intros F. induction ps as [|p r IH]; intros s stk c' W H; cbn [each] in H.
  - injection H as <-. apply pushed_nil.
  - destruct (f p (s, stk)) as [[s1 stk1]| | | |] eqn:E; try discriminate. cbn [bind] in H.
    apply F in E; [|exact W].
    apply (pushed_app _ [p] (s1, stk1)); [exact E|].
    apply IH; [|exact H]. apply (meq_wf s); [exact (p_meq _ _ _ E) | exact W].
Qed.

(** reachability in the collector's own memory *)
Inductive creach (s : gc) (r : roots) : Z -> Prop :=
| cr_root a : root_word r (a + 16) -> hdr s a -> creach s r a
| cr_field a b c : creach s r a -> lookup (mem s) a = Some b -> refers (bobj b) (c + 16) ->
    hdr s c -> creach s r c.

Lemma in_present l w : In w (present l) <-> In (Some w) l.
Proof.
  unfold present. rewrite in_flat_map. split.
  - intros [[p|] [I J]]; [destruct J as [-> | []]; exact I | destruct J].
  - intros I. exists (Some w). split; [exact I | left; reflexivity].
Qed.

Definition words (r : roots) : list Z :=
  present (r_registered r) ++ filter (fun p => negb (p =? 0)) (present (r_globals r))
    ++ r_registers r ++ match r_stack r with None => [] | Some ws => ws end.
Lemma words_root r w : w <> 0 -> In w (words r) <-> root_word r w.
Proof.
  intros N. unfold words, root_word. rewrite !in_app_iff, filter_In, !in_present.
  assert (E : negb (w =? 0) = true) by (rewrite negb_true_iff; apply Z.eqb_neq; exact N).
  rewrite E. destruct (r_stack r) as [ws|].
  - split.
    + intros [H | [[H _] | [H | H]]]; auto. right. right. right. exists ws. auto.
    + intros [H | [H | [H | [ws' [H I]]]]]; auto. injection H as <-. auto.
  - split.
    + intros [H | [[H _] | [H | []]]]; auto.
    + intros [H | [H | [H | [ws' [H _]]]]]; auto. discriminate.
Qed.
Lemma scan_pushed r s ts stk c' : wf s ts -> scan_roots r (s, stk) = Ok c' ->
  pushed (s, stk) (words r) c'.
Proof.
  intros W H. unfold scan_roots in H.
  pose proof (each_pushed mark_if_valid_block ts (fun s stk p c' => mark_if_pushed s ts stk p c')) as EP.
  destruct (each mark_if_valid_block (present (r_registered r)) (s, stk)) as [[s1 k1]| | | |] eqn:E1; try discriminate.
  cbn [bind] in H. apply EP in E1; [|exact W].
  assert (W1 : wf s1 ts) by exact (meq_wf _ _ _ (p_meq _ _ _ E1) W).
  destruct (each mark_if_valid_block _ (s1, k1)) as [[s2 k2]| | | |] eqn:E2 in H; try discriminate.
  cbn [bind] in H. apply EP in E2; [|exact W1].
  assert (W2 : wf s2 ts) by exact (meq_wf _ _ _ (p_meq _ _ _ E2) W1).
  destruct (each mark_if_valid_block _ (s2, k2)) as [[s3 k3]| | | |] eqn:E3 in H; try discriminate.
  cbn [bind] in H. apply EP in E3; [|exact W2].
  assert (W3 : wf s3 ts) by exact (meq_wf _ _ _ (p_meq _ _ _ E3) W2).
  unfold words. apply (pushed_app _ _ (s1, k1)); [exact E1|].
  apply (pushed_app _ _ (s2, k2)); [exact E2|].
  apply (pushed_app _ _ (s3, k3)); [exact E3|].
  destruct (r_stack r) as [ws|].
  - apply EP in H; [exact H | exact W3].
  - injection H as <-. apply pushed_nil.
Qed.

(** the trace functions visit exactly the fields of [refers] *)
Lemma array_in a n ps : array a n = Ok ps ->
  forall w, In w ps <-> exists l i, a = Some l /\ 0 <= i < n /\ nth_error l (Z.to_nat i) = Some w.
Proof.
  unfold array. destruct (n <=? 0) eqn:E.
  - intros H. injection H as <-. apply Z.leb_le in E. intros w. split; [intros []|].
    intros [l [i [_ [H _]]]]. lia.
  - apply Z.leb_gt in E. destruct a as [l|]; [|discriminate].
    destruct (n <=? Z.of_nat (length l)) eqn:F; [|discriminate]. apply Z.leb_le in F.
    intros H. injection H as <-. intros w. split.
    + intros I. apply In_nth_error in I. destruct I as [i I].
      assert (L : (i < Z.to_nat n)%nat).
      { assert (K : nth_error (firstn (Z.to_nat n) l) i <> None) by congruence.
        apply nth_error_Some in K. rewrite firstn_length in K. lia. }
      exists l, (Z.of_nat i). rewrite Nat2Z.id. repeat split; try lia.
      rewrite <- I. clear - L. revert i L. generalize (Z.to_nat n) as k. intros k. revert k l.
      induction k as [|k IH]; intros [|x l] [|i] L; try lia; try reflexivity.
      cbn. apply IH. lia.
    + intros [l' [i [H [R N]]]]. injection H as <-.
      apply (nth_error_In _ (Z.to_nat i)). rewrite <- N.
      assert (L : (Z.to_nat i < Z.to_nat n)%nat) by lia.
      clear - L. revert L. generalize (Z.to_nat i) as j, (Z.to_nat n) as k. intros j k. revert k l j.
      induction k as [|k IH]; intros [|x l] [|j] L; try lia; try reflexivity.
      cbn. apply IH. lia.
Qed.
Lemma trace_refers o ps : trace_fn (tag_of o) o = Ok ps ->
  forall w, (In w ps -> refers o w) /\ (refers o w -> w <> 0 -> In w ps).
Proof.
  intros H w. destruct o; cbn [tag_of trace_fn] in H;
    cbn [trace_scm trace_list trace_proc trace_func trace_cont trace_module trace_port
         trace_promise trace_macro trace_variable] in H.
  - (* scm *)
    destruct (value =? 0) eqn:E.
    + injection H as <-. apply Z.eqb_eq in E. subst. split; [intros [] | intros R; inversion R; subst; congruence].
    + unfold immediate in *.
      destruct ty; injection H as <-; split;
        try solve [intros []];
        try (intros R; inversion R; subst; exfalso;
             match goal with K : ~ immediate _ |- _ => apply K; unfold immediate; tauto end);
        try (intros R N; inversion R; subst; left; reflexivity);
        try (intros [<- | []]; constructor; unfold immediate; intuition discriminate).
  - injection H as <-. split.
    + intros [<- | [<- | []]]; constructor.
    + intros R N; inversion R; subst; cbn; tauto.
  - injection H as <-. split.
    + intros [<- | [<- | [<- | [<- | []]]]]; constructor.
    + intros R N; inversion R; subst; cbn; tauto.
  - injection H as <-. split.
    + intros [<- | [<- | []]]; constructor.
    + intros R N; inversion R; subst; cbn; tauto.
  - injection H as <-. split.
    + intros [<- | [<- | [<- | []]]]; constructor.
    + intros R N; inversion R; subst; cbn; tauto.
  - injection H as <-. split.
    + cbn. intros I. repeat (destruct I as [<- | I]; [constructor|]). destruct I.
    + intros R N; inversion R; subst; cbn; tauto.
  - injection H as <-. split.
    + intros [<- | []]; constructor.
    + intros R N; inversion R; subst; cbn; tauto.
  - cbn [trace_vector] in H. pose proof (array_in _ _ _ H w) as A. split.
    + intros I. apply A in I. destruct I as [l [i [-> [R N]]]]. econstructor; eauto.
    + intros R N. apply A. inversion R; subst. eauto.
  - cbn [trace_hash] in H. pose proof (array_in _ _ _ H w) as A. split.
    + intros I. apply A in I. destruct I as [l [i [-> [R N]]]]. econstructor; eauto.
    + intros R N. apply A. inversion R; subst. eauto.
  - cbn [trace_env] in H. injection H as <-. split.
    + intros I. apply in_app_iff in I. destruct I as [I | [<- | [<- | []]]]; [|apply rf_env_parent|apply rf_env_module].
      apply in_present in I. apply rf_env. exact I.
    + intros R N. apply in_app_iff. inversion R; subst; [|right; cbn; tauto|right; cbn; tauto].
      left. apply in_present. assumption.
  - injection H as <-. split; [intros [] | intros R; inversion R].
  - injection H as <-. split; [intros [] | intros R; inversion R].
  - injection H as <-. split; [intros [] | intros R; inversion R].
  - injection H as <-. split.
    + intros [<- | [<- | []]]; constructor.
    + intros R N; inversion R; subst; cbn; tauto.
  - injection H as <-. split.
    + intros [<- | [<- | [<- | []]]]; constructor.
    + intros R N; inversion R; subst; cbn; tauto.
  - injection H as <-. split.
    + intros [<- | []]; constructor.
    + intros R N; inversion R; subst; cbn; tauto.
  - injection H as <-. split; [intros [] | intros R; inversion R].
Qed.
