(** The mark phase marks exactly what is reachable; when it cannot crash. *)
From Verif Require Import Base GcModel GcSpec GcProofs.
From Coq Require Import Lia.

Lemma creach_hdr s r a : creach s r a -> hdr s a.
Proof. destruct 1; assumption. Qed.

Record minv (s0 : gc) (r : roots) (c : gc * list Z) : Prop := {
  i_meq : meq s0 (fst c);
  i_stk : forall x, In x (snd c) -> marked (fst c) x;
  i_closed : forall x b y, marked (fst c) x -> ~ In x (snd c) -> lookup (mem s0) x = Some b ->
    refers (bobj b) (y + 16) -> hdr s0 y -> marked (fst c) y;
  i_reach : forall x, marked (fst c) x -> creach s0 r x;
  i_root : forall x, root_word r (x + 16) -> hdr s0 x -> marked (fst c) x
}.

Lemma hdr_pos s ts a : wf s ts -> hdr s a -> 0 < a.
Proof.
  intros W H. unfold hdr in H. destruct (lookup (mem s) a) as [b|] eqn:L; [|congruence].
  apply (header_range s ts W a b L).
Qed.

Lemma minv_start s0 ts r c : wf s0 ts -> unmarked s0 -> scan_roots r (s0, []) = Ok c -> minv s0 r c.
Proof.
  intros W U H. pose proof (scan_pushed r s0 ts [] c W H) as P.
  assert (N : forall x, ~ marked s0 x).
  { intros x [b [L M]]. rewrite (U _ _ L) in M. discriminate. }
  assert (M : forall x, marked (fst c) x <-> In (x + 16) (words r) /\ hdr s0 x).
  { intros x. rewrite (p_mark _ _ _ P). cbn [fst]. specialize (N x). tauto. }
  constructor.
  - exact (p_meq _ _ _ P).
  - intros x I. apply (p_stk _ _ _ P) in I. destruct I as [[] | [I _]]. exact I.
  - intros x b y Mx NI. exfalso. apply NI. apply (p_stk _ _ _ P). right. split; [exact Mx | apply N].
  - intros x Mx. apply M in Mx. destruct Mx as [I H']. apply cr_root; [|exact H'].
    apply words_root; [|exact I]. pose proof (hdr_pos _ _ _ W H'). lia.
  - intros x R H'. apply M. split; [|exact H'].
    apply words_root; [|exact R]. pose proof (hdr_pos _ _ _ W H'). lia.
Qed.

Lemma minv_step s0 ts r s a stk b ps c' : wf s0 ts -> minv s0 r (s, a :: stk) ->
  lookup (mem s) a = Some b -> trace_fn (btag b) (bobj b) = Ok ps ->
  each trace_ptr ps (s, stk) = Ok c' -> minv s0 r c'.
Proof.
  intros W I L T E.
  assert (W1 : wf s ts) by exact (meq_wf _ _ _ (i_meq _ _ _ I) W).
  pose proof (each_pushed trace_ptr ts (fun s stk p c' => trace_ptr_pushed s ts stk p c') ps s stk c' W1 E) as P.
  destruct (meq_lookup' _ _ _ _ (i_meq _ _ _ I) L) as [b0 [L0 [E1 [E2 E3]]]].
  assert (TR : forall w, (In w ps -> refers (bobj b0) w) /\ (refers (bobj b0) w -> w <> 0 -> In w ps)).
  { apply trace_refers. rewrite <- (w_tag _ _ W _ _ L0), E1, E3. exact T. }
  assert (H0 : forall x, hdr s x <-> hdr s0 x).
  { intros x. symmetry. apply meq_hdr. exact (i_meq _ _ _ I). }
  assert (Ma : marked s a) by (apply (i_stk _ _ _ I); left; reflexivity).
  constructor.
  - apply (meq_trans _ s); [exact (i_meq _ _ _ I) | exact (p_meq _ _ _ P)].
  - intros x J. apply (p_stk _ _ _ P) in J. cbn [fst snd] in J. destruct J as [J | [J _]]; [|exact J].
    apply (p_mark _ _ _ P). left. apply (i_stk _ _ _ I). right. exact J.
  - intros x bx y Mx NI Lx R Hy. apply (p_mark _ _ _ P). cbn [fst].
    destruct (Z.eq_dec x a) as [-> | NE].
    + right. rewrite L0 in Lx. injection Lx as <-. split; [|apply H0; exact Hy].
      apply TR; [exact R|]. pose proof (hdr_pos _ _ _ W Hy). lia.
    + left. assert (Mx' : marked s x).
      { destruct (marked_dec s x) as [D | D]; [exact D|]. exfalso. apply NI.
        apply (p_stk _ _ _ P). right. split; [exact Mx | exact D]. }
      apply (i_closed _ _ _ I x bx y Mx'); auto.
      cbn [snd]. intros [J | J]; [congruence|]. apply NI. apply (p_stk _ _ _ P). left. exact J.
  - intros x Mx. apply (p_mark _ _ _ P) in Mx. cbn [fst] in Mx. destruct Mx as [Mx | [J H]].
    + apply (i_reach _ _ _ I). exact Mx.
    + apply (cr_field _ _ a b0).
      * apply (i_reach _ _ _ I). exact Ma.
      * exact L0.
      * apply TR. exact J.
      * apply H0. exact H.
  - intros x R H. apply (p_mark _ _ _ P). left. apply (i_root _ _ _ I); assumption.
Qed.

Lemma mark_loop_marks s0 ts r : wf s0 ts -> forall fuel c s', minv s0 r c -> mark_loop fuel c = Ok s' ->
  meq s0 s' /\ forall x, marked s' x <-> creach s0 r x.
Proof.
  intros W. induction fuel as [|f IH]; intros [s stk] s' I H; cbn [mark_loop fst snd] in H.
  - destruct stk as [|a stk]; [|discriminate]. injection H as <-.
    split; [exact (i_meq _ _ _ I)|]. intros x. split; [apply (i_reach _ _ _ I)|].
    induction 1 as [x R H | x b y C IHC L R H].
    + apply (i_root _ _ _ I); assumption.
    + apply (i_closed _ _ _ I x b y IHC); auto.
  - destruct stk as [|a stk].
    + injection H as <-.
      split; [exact (i_meq _ _ _ I)|]. intros x. split; [apply (i_reach _ _ _ I)|].
      induction 1 as [x R H | x b y C IHC L R H].
      * apply (i_root _ _ _ I); assumption.
      * apply (i_closed _ _ _ I x b y IHC); auto.
    + destruct (lookup (mem s) a) as [b|] eqn:L; [|discriminate].
      destruct (trace_fn (btag b) (bobj b)) as [ps| | | |] eqn:T; try discriminate. cbn [bind] in H.
      destruct (each trace_ptr ps (s, stk)) as [c'| | | |] eqn:E; try discriminate. cbn [bind] in H.
      apply (IH c'); [|exact H]. apply (minv_step s0 ts r s a stk b ps c'); assumption.
Qed.
Lemma mark_phase_marks s ts r s' : wf s ts -> unmarked s -> mark_phase r s = Ok s' ->
  meq s s' /\ forall x, marked s' x <-> creach s r x.
Proof.
  intros W U H. unfold mark_phase in H.
  destruct (scan_roots r (s, [])) as [c| | | |] eqn:E; try discriminate. cbn [bind] in H.
  apply (mark_loop_marks s ts r W (S (length (mem s))) c); [|exact H]. apply (minv_start s ts); assumption.
Qed.

(** * the mark phase does not crash *)
Definition safe (s : gc) (w : Z) : Prop :=
  w = 0 \/ hdr s (w - 16) \/ w mod 16 <> 0 \/ w < heap_lo s \/ heap_hi s <= w.

Lemma safe_meq s s' w : meq s s' -> safe s w -> safe s' w.
Proof.
  intros Q. unfold safe. rewrite <- (q_lo _ _ Q), <- (q_hi _ _ Q), <- (meq_hdr _ _ (w - 16) Q). auto.
Qed.
Lemma mod16_sub w : (w - 16) mod 16 = w mod 16.
Proof. replace (w - 16) with (w + (-1) * 16) by lia. apply Z.mod_add. lia. Qed.
Lemma hdr_lookup s a : hdr s a -> exists b, lookup (mem s) a = Some b.
Proof. unfold hdr. destruct (lookup (mem s) a); [eauto | congruence]. Qed.

Lemma valid_safe s ts w : wf s ts -> safe s w -> exists o, valid_block s (w - 16) = Ok o \/ w = 0.
Proof.
  intros W [H | [H | [H | [H | H]]]].
  - exists None. auto.
  - destruct (hdr_lookup _ _ H) as [b L]. exists (Some b). left. apply (valid_header s ts W). exact L.
  - exists None. left. unfold valid_block. rewrite land15, mod16_sub.
    destruct (w mod 16 =? 0) eqn:E; [apply Z.eqb_eq in E; contradiction|].
    rewrite andb_false_r. reflexivity.
  - exists None. left. unfold valid_block.
    destruct (heap_lo s <=? w - 16) eqn:E; [apply Z.leb_le in E; lia|]. reflexivity.
  - unfold valid_block. destruct (w - 16 + 16 <=? heap_hi s) eqn:E.
    + apply Z.leb_le in E. assert (w = heap_hi s) by lia. subst w.
      destruct (w_hi _ _ W) as [g [Ig [A B]]].
      assert (M : mapped s (heap_hi s - 16) = true).
      { unfold mapped. apply existsb_exists. exists g. split; [exact Ig|].
        apply andb_true_intro. split; apply Z.leb_le; lia. }
      unfold read_header. rewrite M.
      destruct ((heap_lo s <=? heap_hi s - 16) && true && (Z.land (heap_hi s - 16) 15 =? 0)); eauto.
    + exists None. left. rewrite andb_false_r. reflexivity.
Qed.
Lemma push_ok s ts a stk o : wf s ts -> valid_block s a = Ok o -> exists c', push_if_unmarked a (s, stk) = Ok c'.
Proof.
  intros W H. unfold push_if_unmarked. rewrite H. cbn [bind]. destruct o as [b|]; [|eauto].
  destruct (bmark b); eauto.
Qed.
Lemma trace_ptr_ok s ts stk w : wf s ts -> safe s w -> exists c', trace_ptr w (s, stk) = Ok c'.
Proof.
  intros W H. unfold trace_ptr, HEADER. cbn [fst]. destruct (w =? 0) eqn:E; [eauto|].
  destruct (valid_safe s ts w W H) as [o [V | ->]]; [|discriminate].
  rewrite V. cbn [bind]. destruct o; [|eauto]. apply (push_ok s ts _ _ _ W V).
Qed.
Lemma mark_if_ok s ts stk w : wf s ts -> safe s w -> exists c', mark_if_valid_block w (s, stk) = Ok c'.
Proof.
  intros W H. unfold mark_if_valid_block, HEADER. cbn [fst]. destruct (w =? 0) eqn:E; [eauto|].
  destruct ((w <? heap_lo s) || (heap_hi s <=? w)) eqn:F; [eauto|].
  destruct (negb (Z.land (w - 16) 15 =? 0)) eqn:G; [eauto|].
  apply orb_false_elim in F. destruct F as [F1 F2]. apply Z.ltb_ge in F1. apply Z.leb_gt in F2.
  apply negb_false_iff, Z.eqb_eq in G. rewrite land15, mod16_sub in G. apply Z.eqb_neq in E.
  destruct H as [H | [H | [H | [H | H]]]]; try lia.
  destruct (hdr_lookup _ _ H) as [b L].
  unfold read_header. rewrite (header_mapped s ts W _ _ L), L. cbn [bind].
  apply (push_ok s ts _ _ (Some b) W). apply (valid_header s ts W). exact L.
Qed.
Lemma each_ok (f : Z -> gc * list Z -> res (gc * list Z)) ts :
  (forall s stk p c', wf s ts -> f p (s, stk) = Ok c' -> pushed (s, stk) [p] c') ->
  (forall s stk p, wf s ts -> safe s p -> exists c', f p (s, stk) = Ok c') ->
  forall ps s stk, wf s ts -> (forall w, In w ps -> safe s w) -> exists c', each f ps (s, stk) = Ok c'.
Proof.
  intros F G. induction ps as [|p r IH]; intros s stk W H; cbn [each]; [eauto|].
  destruct (G s stk p W) as [[s1 k1] E]; [apply H; left; reflexivity|].
  rewrite E. cbn [bind]. apply F in E; [|exact W].
  apply IH.
  - exact (meq_wf _ _ _ (p_meq _ _ _ E) W).
  - intros w I. apply (safe_meq s); [exact (p_meq _ _ _ E)|]. apply H. right. exact I.
Qed.
Lemma scan_ok r s ts stk : wf s ts -> (forall w, In w (words r) -> safe s w) ->
  exists c', scan_roots r (s, stk) = Ok c'.
Proof.
  intros W H. unfold scan_roots, words in *.
  pose proof (each_pushed mark_if_valid_block ts (fun s stk p c' => mark_if_pushed s ts stk p c')) as EP.
  pose proof (each_ok mark_if_valid_block ts (fun s stk p c' => mark_if_pushed s ts stk p c')
                (fun s stk p => mark_if_ok s ts stk p)) as EO.
  destruct (EO (present (r_registered r)) s stk W) as [[s1 k1] E1].
  { intros w I. apply H. rewrite !in_app_iff. auto. }
  rewrite E1. cbn [bind]. apply EP in E1; [|exact W].
  assert (W1 : wf s1 ts) by exact (meq_wf _ _ _ (p_meq _ _ _ E1) W).
  destruct (EO (filter (fun p => negb (p =? 0)) (present (r_globals r))) s1 k1 W1) as [[s2 k2] E2].
  { intros w I. apply (safe_meq s); [exact (p_meq _ _ _ E1)|]. apply H. rewrite !in_app_iff. auto. }
  rewrite E2. cbn [bind]. apply EP in E2; [|exact W1].
  assert (W2 : wf s2 ts) by exact (meq_wf _ _ _ (p_meq _ _ _ E2) W1).
  assert (Q2 : meq s s2) by exact (meq_trans _ _ _ (p_meq _ _ _ E1) (p_meq _ _ _ E2)).
  destruct (EO (r_registers r) s2 k2 W2) as [[s3 k3] E3].
  { intros w I. apply (safe_meq s); [exact Q2|]. apply H. rewrite !in_app_iff. auto. }
  rewrite E3. cbn [bind]. apply EP in E3; [|exact W2].
  assert (W3 : wf s3 ts) by exact (meq_wf _ _ _ (p_meq _ _ _ E3) W2).
  assert (Q3 : meq s s3) by exact (meq_trans _ _ _ Q2 (p_meq _ _ _ E3)).
  destruct (r_stack r) as [ws|]; [|eauto].
  apply EO; [exact W3|]. intros w I. apply (safe_meq s); [exact Q3|]. apply H. rewrite !in_app_iff. auto.
Qed.
Lemma trace_ok o : sound_arrays o -> exists ps, trace_fn (tag_of o) o = Ok ps.
Proof.
  assert (A : forall (a : option (list Z)) n, n <= match a with Some l => Z.of_nat (length l) | None => 0 end ->
            exists ps, array a n = Ok ps).
  { intros a n H. unfold array. destruct (n <=? 0) eqn:E; [eauto|]. apply Z.leb_gt in E.
    destruct a as [l|]; [|lia]. destruct (n <=? Z.of_nat (length l)) eqn:F; [eauto|].
    apply Z.leb_gt in F. lia. }
  destruct o; cbn [tag_of trace_fn sound_arrays]; intros H; try (eexists; reflexivity).
  - cbn [trace_scm]. destruct (value =? 0); [eauto|]. destruct ty; eauto.
  - apply A. exact H.
  - apply A. exact H.
Qed.
Lemma mark_loop_ok s0 ts r : wf s0 ts ->
  (forall a b, creach s0 r a -> lookup (mem s0) a = Some b ->
     sound_arrays (bobj b) /\ forall w, refers (bobj b) w -> safe s0 w) ->
  forall fuel c, minv s0 r c -> (count (mem (fst c)) + length (snd c) <= fuel)%nat ->
  exists s', mark_loop fuel c = Ok s'.
Proof.
  intros W H. induction fuel as [|f IH]; intros [s stk] I C; cbn [mark_loop fst snd] in *.
  - destruct stk as [|a stk]; [eauto|]. cbn [length] in C. lia.
  - destruct stk as [|a stk]; [eauto|].
    assert (Ma : marked s a) by (apply (i_stk _ _ _ I); left; reflexivity).
    destruct Ma as [b [L M]]. rewrite L.
    destruct (meq_lookup' _ _ _ _ (i_meq _ _ _ I) L) as [b0 [L0 [E1 [E2 E3]]]].
    assert (CR : creach s0 r a) by (apply (i_reach _ _ _ I); exists b; auto).
    destruct (H a b0 CR L0) as [SA SW].
    destruct (trace_ok (bobj b0) SA) as [ps T].
    rewrite <- (w_tag _ _ W _ _ L0), E1, E3 in T. rewrite T. cbn [bind].
    assert (W1 : wf s ts) by exact (meq_wf _ _ _ (i_meq _ _ _ I) W).
    destruct (each_ok trace_ptr ts (fun s stk p c' => trace_ptr_pushed s ts stk p c')
                (fun s stk p => trace_ptr_ok s ts stk p) ps s stk W1) as [c' E].
    { intros w J. apply (safe_meq s0); [exact (i_meq _ _ _ I)|]. apply SW.
      rewrite E3. assert (TG : btag b = tag_of (bobj b)) by (rewrite <- E1, <- E3; exact (w_tag _ _ W _ _ L0)).
      rewrite TG in T. apply (trace_refers _ _ T). exact J. }
    rewrite E. cbn [bind]. apply IH.
    + apply (minv_step s0 ts r s a stk b ps c'); assumption.
    + pose proof (each_pushed trace_ptr ts (fun s stk p c' => trace_ptr_pushed s ts stk p c') ps s stk c' W1 E) as P.
      pose proof (p_count _ _ _ P) as PC. cbn [fst snd length] in *. lia.
Qed.
Lemma mark_phase_ok s ts r : wf s ts -> unmarked s ->
  (forall w, root_word r w -> safe s w) ->
  (forall a b, creach s r a -> lookup (mem s) a = Some b ->
     sound_arrays (bobj b) /\ forall w, refers (bobj b) w -> safe s w) ->
  exists s', mark_phase r s = Ok s'.
Proof.
  intros W U HR HB. unfold mark_phase.
  destruct (scan_ok r s ts [] W) as [c E].
  { intros w I. destruct (Z.eq_dec w 0) as [-> | N]; [left; reflexivity|].
    apply HR. apply words_root; assumption. }
  rewrite E. cbn [bind].
  apply (mark_loop_ok s ts r W HB).
  - apply (minv_start s ts); assumption.
  - pose proof (scan_pushed r s ts [] c W E) as P. rewrite (p_count _ _ _ P). cbn [fst snd length].
    pose proof (count_le (mem s)). lia.
Qed.
