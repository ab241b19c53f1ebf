(** Invariants of the port system. *)
From Coq Require Import Lia.
From Verif Require Import Base NumModel StringModel ParseModel PrintModel PortModel PortSpec PortProofs PsysModel PsysSpec.
Local Open Scope list_scope.
Local Open Scope nat_scope.

(** ** lists *)
Lemma set_nth_len {A} (l : list A) n x : length (set_nth l n x) = length l.
Proof.
  unfold set_nth. revert n. induction l as [|a l IH]; intros [|n]; cbn; auto.
Qed.
Lemma set_nth_same {A} (l : list A) n x : n < length l -> nth_error (set_nth l n x) n = Some x.
Proof.
  unfold set_nth. revert n. induction l as [|a l IH]; intros [|n] L; cbn in *; try lia; auto. apply IH. lia.
Qed.
Lemma set_nth_other {A} (l : list A) n m x : m <> n -> nth_error (set_nth l n x) m = nth_error l m.
Proof.
  unfold set_nth. revert n m. induction l as [|a l IH]; intros [|n] [|m] N; cbn; auto; lia.
Qed.
Lemma nth_lt {A} (l : list A) n x : nth_error l n = Some x -> n < length l.
Proof. intros E. apply nth_error_Some. now rewrite E. Qed.
Lemma nth_app_old {A} (l : list A) m n x : nth_error l n = Some x -> nth_error (l ++ m) n = Some x.
Proof. intros E. rewrite nth_error_app1; auto. eapply nth_lt; eauto. Qed.
Lemma nth_app_one {A} (l : list A) n x y : nth_error (l ++ [x]) n = Some y ->
  nth_error l n = Some y \/ (n = length l /\ y = x).
Proof.
  intros E. destruct (Nat.lt_ge_cases n (length l)) as [L|L].
  - left. now rewrite nth_error_app1 in E.
  - right. rewrite nth_error_app2 in E by auto. destruct (n - length l) as [|d] eqn:D; cbn in E.
    + split; [lia|congruence].
    + destruct d; discriminate E.
Qed.
Lemma nth_app_last {A} (l : list A) x : nth_error (l ++ [x]) (length l) = Some x.
Proof. rewrite nth_error_app2 by lia. now rewrite Nat.sub_diag. Qed.

Lemma path_eqb_eq a b : path_eqb a b = true <-> a = b.
Proof.
  destruct a as [n|s], b as [m|t]; cbn; try (split; congruence).
  - rewrite Nat.eqb_eq. split; congruence.
  - unfold zs_eqb. destruct (list_eq_dec Z.eq_dec s t); split; congruence.
Qed.
Lemma path_eqb_refl a : path_eqb a a = true. Proof. now apply path_eqb_eq. Qed.
Lemma path_eqb_neq a b : a <> b -> path_eqb a b = false.
Proof. intros N. destruct (path_eqb a b) eqn:E; auto. apply path_eqb_eq in E. contradiction. Qed.

Lemma overwrite_end c s : overwrite c (length c) s = c ++ s.
Proof.
  unfold overwrite. rewrite firstn_all, Nat.sub_diag. cbn [repeat app].
  rewrite skipn_all2 by lia. now rewrite app_nil_r.
Qed.

(** ** The FILE a port uses *)
Definition file_of (p : port) : option nat :=
  match pt_kind p with KFileIn h => h | KFileOut h => h | _ => None end.

(* the kind of a port agrees with its direction and closed flags *)
Definition good (p : port) : Prop :=
  match pt_kind p with
  | KFileIn h => pt_input p = true /\ pt_closed p = match h with Some _ => false | None => true end
  | KFileOut h => pt_input p = false /\ pt_closed p = match h with Some _ => false | None => true end
  | KStrIn q => pt_input p = true /\ ip_closed q = pt_closed p
  | KStrOut q => pt_input p = false /\ op_closed q = pt_closed p
  | KSoft pv m => pt_input p = has 114 m /\ (has 114 m = true \/ has 119 m = true) /\ 5 <= length pv
  end.
Definition all_good (w : world) : Prop := forall j p, nth_error (w_ports w) j = Some p -> good p.
(* the changes a port can undergo: p' later than p *)
Definition later (p p' : port) : Prop :=
  pt_input p' = pt_input p /\ (pt_closed p = true -> p' = p) /\ (file_of p' = None \/ file_of p' = file_of p) /\
  match pt_kind p, pt_kind p' with
  | KFileIn _, KFileIn _ | KFileOut _, KFileOut _ | KStrIn _, KStrIn _ | KStrOut _, KStrOut _ => True
  | KSoft a m, KSoft b n => a = b /\ m = n
  | _, _ => False
  end.
Lemma later_refl p : later p p.
Proof. unfold later. repeat split; auto. destruct (pt_kind p); auto. Qed.
Lemma later_trans p q r : later p q -> later q r -> later p r.
Proof.
  intros (A & B & C & D) (A' & B' & C' & D'). unfold later. split; [congruence|]. split.
  { intros E. rewrite (B E) in B'. now apply B'. }
  split. { destruct C' as [C'|C']; rewrite C'; auto. }
  destruct (pt_kind p), (pt_kind q); try contradiction; destruct (pt_kind r); try contradiction; auto.
  destruct D, D'. split; congruence.
Qed.

(** ** What a primitive leaves alone.  [t]: the port it may change, [g]: the
    FILE it may use, [po]: the file it may open for output. *)
Record frame (w w' : world) (t g : option nat) (po : option fpath) : Prop := {
  f_keep : forall j p, nth_error (w_ports w) j = Some p -> t <> Some j -> nth_error (w_ports w') j = Some p;
  f_new : forall j p', nth_error (w_ports w') j = Some p' -> t <> Some j ->
     nth_error (w_ports w) j = Some p' \/
     (j = length (w_ports w) /\ forall i, file_of p' = Some i -> length (w_handles w) <= i < length (w_handles w'));
  f_self : forall j p', t = Some j -> nth_error (w_ports w') j = Some p' ->
     exists p, nth_error (w_ports w) j = Some p /\ later p p';
  f_good : all_good w -> all_good w';
  f_plen : length (w_ports w) <= length (w_ports w');
  f_hkeep : forall i, i < length (w_handles w) -> g <> Some i -> nth_error (w_handles w') i = nth_error (w_handles w) i;
  f_hlen : length (w_handles w) <= length (w_handles w');
  f_hnew : forall i o, nth_error (w_handles w') i = Some (HOut o) -> length (w_handles w) <= i -> po = Some (ho_path o);
  f_hself : forall i o', g = Some i -> i < length (w_handles w) -> nth_error (w_handles w') i = Some (HOut o') ->
     exists o, nth_error (w_handles w) i = Some (HOut o) /\ ho_path o' = ho_path o;
  f_files : forall q, w_files w' q = w_files w q \/ po = Some q \/
     exists i o, g = Some i /\ nth_error (w_handles w) i = Some (HOut o) /\ ho_path o = q }.

Lemma fr_refl w t g po : frame w w t g po.
Proof.
  constructor; intros; eauto using later_refl.
  - apply nth_lt in H. lia.
Qed.
(* changes that touch neither ports nor FILEs nor files *)
Lemma fr_same w w' w2 t g po : frame w w' t g po -> w_ports w2 = w_ports w' -> w_handles w2 = w_handles w' -> w_files w2 = w_files w' ->
  frame w w2 t g po.
Proof. intros [] A B C. constructor; unfold all_good in *; rewrite ?A, ?B, ?C; auto. Qed.
Lemma fr_port w w' t g po k p q : frame w w' t g po -> t = Some k -> nth_error (w_ports w') k = Some q ->
  later q p -> (good q -> good p) -> frame w (set_port w' k p) t g po.
Proof.
  intros [] T N F GG. assert (KL := nth_lt _ _ _ N).
  constructor; cbn [set_port w_ports w_handles w_files]; auto.
  - intros j p0 A B. rewrite set_nth_other by congruence. auto.
  - intros j p0 A B. rewrite set_nth_other in A by congruence. auto.
  - intros j p0 A B. assert (j = k) by congruence. subst j. rewrite set_nth_same in B by auto. inversion B; subst p0.
    destruct (f_self0 k q A N) as (q0 & Q & E); exists q0; split; auto. eapply later_trans; eauto.
  - intros AG j p0 M. cbn [set_port w_ports] in M. destruct (Nat.eq_dec j k) as [-> |NE].
    + rewrite set_nth_same in M by auto. inversion M; subst. apply GG. eapply f_good0; eauto.
    + rewrite set_nth_other in M by auto. eapply f_good0; eauto.
  - rewrite set_nth_len. auto.
Qed.
Lemma fr_handle w w' t g po i h : frame w w' t g po -> g = Some i ->
  (forall o', h = HOut o' -> i < length (w_handles w) -> exists o, nth_error (w_handles w) i = Some (HOut o) /\ ho_path o' = ho_path o) ->
  (forall o', h = HOut o' -> length (w_handles w) <= i -> po = Some (ho_path o')) ->
  frame w (set_handle w' i h) t g po.
Proof.
  intros [] G A B. constructor; cbn [set_handle w_ports w_handles w_files]; rewrite ?set_nth_len; auto.
  - intros j L N. rewrite set_nth_other by congruence. auto.
  - intros j o N L. destruct (Nat.eq_dec j i) as [-> |NE].
    + assert (i < length (w_handles w')) by (apply nth_lt in N; now rewrite set_nth_len in N).
      rewrite set_nth_same in N by auto. inversion N; subst. eauto.
    + rewrite set_nth_other in N by auto. eauto.
  - intros j o N L M. assert (j = i) by congruence. subst j.
    assert (i < length (w_handles w')) by (apply nth_lt in M; now rewrite set_nth_len in M).
    rewrite set_nth_same in M by auto. inversion M; subst. eauto.
Qed.
Lemma fr_file w w' t g po q s : frame w w' t g po ->
  (po = Some q \/ exists i o, g = Some i /\ nth_error (w_handles w) i = Some (HOut o) /\ ho_path o = q) ->
  frame w (set_file w' q s) t g po.
Proof.
  intros [] A. constructor; cbn [set_file w_ports w_handles w_files]; auto.
  intros q0. destruct (path_eqb q0 q) eqn:E; auto. apply path_eqb_eq in E. subst q0. auto.
Qed.
Lemma fr_push w t g po i h n : g = Some i -> (forall o, h = o -> exists o0, nth_error (w_handles w) i = Some (HOut o0) /\ ho_path o = ho_path o0) ->
  frame w (push w i h n) t g po.
Proof.
  intros G A. destruct (A h eq_refl) as (o0 & N & P). unfold push. apply fr_handle; auto.
  - apply fr_file; [apply fr_refl|]. right. exists i, o0. auto.
  - intros o' [= <-] L. exists o0. auto.
  - intros o' [= <-] L. apply nth_lt in N. lia.
Qed.
Lemma fr_add_port w w' t g po p : frame w w' t g po -> length (w_ports w') = length (w_ports w) -> (t = None \/ forall j, t = Some j -> j < length (w_ports w')) ->
  (forall i, file_of p = Some i -> length (w_handles w) <= i < length (w_handles w')) -> good p -> frame w (add_port w' p) t g po.
Proof.
  intros [] LE T A GP. constructor; cbn [add_port w_ports w_handles w_files]; rewrite ?app_length; auto; try lia.
  - intros j q N M. apply nth_app_old. auto.
  - intros j q N M. apply nth_app_one in N. destruct N as [N|[-> ->]]; auto.
  - intros j q N M. apply nth_app_one in M. destruct M as [M|[-> ->]]; eauto.
    destruct T as [T|T]; [congruence|]. apply T in N. lia.
  - intros AG j q M. cbn [add_port w_ports] in M. apply nth_app_one in M. destruct M as [M|[-> ->]]; auto. eapply f_good0; eauto.
Qed.
Lemma fr_add_handle w w' t g po h : frame w w' t g po ->
  (forall o, h = HOut o -> po = Some (ho_path o)) ->
  frame w (add_handle w' h) t g po.
Proof.
  intros [] A. constructor; cbn [add_handle w_ports w_handles w_files]; rewrite ?app_length; auto; try lia.
  - intros j q N M. destruct (f_new0 j q N M) as [B|[B C]]; auto. right. split; auto. intros i F. cbn. apply C in F. lia.
  - intros i L N. rewrite nth_error_app1 by lia. auto.
  - intros i o N L. apply nth_app_one in N. destruct N as [N|[-> E]]; eauto.
  - intros i o N L M. apply nth_app_one in M. destruct M as [M|[-> E]]; eauto. lia.
Qed.

Ltac inv1 :=
  match goal with
  | H : Ok _ = Ok _ |- _ => inversion H; clear H; subst
  | H : UB = Ok _ |- _ => discriminate H
  | H : Err = Ok _ |- _ => discriminate H
  | H : Abort = Ok _ |- _ => discriminate H
  | H : Fuel = Ok _ |- _ => discriminate H
  | H : context [bind ?m _] |- _ => destruct m eqn:?; cbn [bind] in H
  | H : context [match ?x with _ => _ end] |- _ => destruct x eqn:?
  end.

Lemma fput_frame c w t po i s w' : fput c w i s = Ok w' -> frame w w' t (Some i) po.
Proof. intros H. unfold fput in H. repeat inv1. apply fr_push; auto. intros o <-. eexists. split; [eassumption|reflexivity]. Qed.
Lemma fflush_frame w t po i w' : fflush w i = Ok w' -> frame w w' t (Some i) po.
Proof. intros H. unfold fflush in H. repeat inv1. apply fr_push; auto. intros o <-. eexists. split; [eassumption|reflexivity]. Qed.
Lemma fclose_frame w t po i w' : fclose w i = Ok w' -> frame w w' t (Some i) po.
Proof.
  intros H. unfold fclose in H. repeat inv1; apply fr_handle; auto; try (intros ? [=]).
  - apply fr_refl.
  - apply fr_push; auto. intros o <-. eexists. split; [eassumption|reflexivity].
Qed.
Lemma fgetc_frame c w t po i o w' : fgetc c w i = Ok (o, w') -> frame w w' t (Some i) po.
Proof.
  intros H. unfold fgetc in H. cbv zeta in H. repeat inv1; try apply fr_refl; apply fr_handle; auto; try apply fr_refl; intros ? [=].
Qed.
Lemma ungetc_frame w w0 t po i b w' : frame w w0 t (Some i) po -> ungetc w0 i b = Ok w' -> frame w w' t (Some i) po.
Proof. intros F H. unfold ungetc in H. repeat inv1; apply fr_handle; auto; intros ? [=]. Qed.

Lemma fclose_ports w i w' : fclose w i = Ok w' -> w_ports w' = w_ports w.
Proof. unfold fclose. intros H. repeat inv1; reflexivity. Qed.
Lemma get_port_nth w a k p : get_port w a = Some (k, p) -> nth_error (w_ports w) k = Some p /\ a = APort k.
Proof.
  unfold get_port. intros H. destruct a as [j| |]; try discriminate H.
  destruct (nth_error (w_ports w) j) eqn:E; [|discriminate H]. inversion H; subst. auto.
Qed.
Lemma call_slot_frame c w s args o w' t g po : call_slot c w s args = (o, w') -> frame w w' t g po.
Proof. intros H. unfold call_slot in H. destruct s; inversion H; subst; try apply fr_refl. now apply (fr_same w w); [apply fr_refl| | |]. Qed.
Lemma call_slot_ports c w s args o w' : call_slot c w s args = (o, w') -> w_ports w' = w_ports w.
Proof. unfold call_slot. destruct s; intros [= <- <-]; reflexivity. Qed.

Lemma read_closed q o q' : read_char_port q = Ok (o, q') -> ip_closed q' = ip_closed q.
Proof. unfold read_char_port. intros H. repeat inv1; auto. Qed.
Lemma bset_closed p i x p' : buf_set p i x = Ok p' -> op_closed p' = op_closed p.
Proof. unfold buf_set. intros H. repeat inv1; reflexivity. Qed.
Lemma grow_closed p p' : grow p = Ok p' -> op_closed p' = op_closed p.
Proof. unfold grow. intros H. destruct (int_ok _); cbn [bind] in H; repeat inv1; reflexivity. Qed.
Lemma gloop_closed : forall f p n p', grow_loop f p n = Ok p' -> op_closed p' = op_closed p.
Proof.
  induction f as [|f IH]; intros p n p' H; cbn [grow_loop] in H; [discriminate H|].
  destruct (int_ok _) as [z| | | |]; cbn [bind] in H; try discriminate H.
  destruct (z >=? op_cap p)%Z.
  - destruct (grow p) as [q| | | |] eqn:G; cbn [bind] in H; try discriminate H.
    apply IH in H. apply grow_closed in G. congruence.
  - inversion H. reflexivity.
Qed.
Lemma copy_closed : forall s p i p', buf_copy p i s = Ok p' -> op_closed p' = op_closed p.
Proof.
  induction s as [|b s IH]; intros p i p' H; cbn [buf_copy] in H; [now inversion H|].
  destruct (buf_set p i b) as [q| | | |] eqn:G; cbn [bind] in H; try discriminate H.
  apply IH in H. apply bset_closed in G. congruence.
Qed.
Lemma wchar_closed q b q' : write_char_port q b = Ok q' -> op_closed q' = op_closed q.
Proof.
  unfold write_char_port. intros H. destruct (op_closed q) eqn:C; [inversion H; congruence|].
  destruct (int_ok _) as [z| | | |]; cbn [bind] in H; try discriminate H.
  destruct (if (z >=? op_cap q)%Z then grow q else Ok q) as [p1| | | |] eqn:G; cbn [bind] in H; try discriminate H.
  assert (op_closed p1 = false).
  { destruct (z >=? op_cap q)%Z; [apply grow_closed in G|inversion G]; congruence. }
  destruct (buf_set p1 _ b) as [p2| | | |] eqn:B; cbn [bind] in H; try discriminate H.
  apply bset_closed in B. apply bset_closed in H. cbn [set_len op_closed] in H. congruence.
Qed.
Lemma wtext_closed q b q' : write_text_port q b = Ok q' -> op_closed q' = op_closed q.
Proof.
  unfold write_text_port. cbv zeta. intros H. destruct (op_closed q) eqn:C; [inversion H; congruence|].
  destruct (int_ok _) as [z| | | |]; cbn [bind] in H; try discriminate H.
  destruct (grow_loop _ q _) as [p1| | | |] eqn:G; cbn [bind] in H; try discriminate H. apply gloop_closed in G.
  destruct (buf_copy _ _ _) as [p2| | | |] eqn:B; cbn [bind] in H; try discriminate H. apply copy_closed in B.
  destruct (int_ok (op_len p2 + z)) as [z2| | | |]; cbn [bind] in H; try discriminate H.
  apply bset_closed in H. cbn [set_len op_closed] in H. congruence.
Qed.
Lemma ostep_closed q o q' : o <> OpCloseOut -> oport_step q o = Ok q' -> op_closed q' = op_closed q.
Proof. destruct o; cbn [oport_step]; intros N H; eauto using wchar_closed, wtext_closed. contradiction. Qed.

Ltac lat K CL := unfold later, file_of; cbn [pt_kind pt_input pt_closed]; rewrite ?K, CL; cbn [pt_kind pt_input pt_closed];
  repeat split; auto; discriminate.
Ltac gd K := unfold good; cbn [pt_kind pt_input pt_closed ip_closed op_closed]; rewrite ?K; intuition congruence.
Lemma close_frame c w k p a w' po : nth_error (w_ports w) k = Some p -> close_port c w k p = Ok (a, w') ->
  frame w w' (Some k) (file_of p) po.
Proof.
  intros N H. unfold close_port, file_of in *.
  destruct (pt_closed p) eqn:CL; [repeat inv1; apply fr_refl|].
  destruct (pt_kind p) as [[i|]|[i|]|q|q|procs m] eqn:K.
  - destruct (fclose w i) as [w1| | | |] eqn:F; cbn [bind] in H; repeat inv1.
    eapply fr_port; [eapply fclose_frame; eauto|reflexivity|rewrite (fclose_ports _ _ _ F); exact N| |]; [lat K CL|gd K].
  - repeat inv1. eapply (fr_port w w _ _ _ k _ p); [apply fr_refl|reflexivity|exact N| |]; [lat K CL|gd K].
  - destruct (fclose w i) as [w1| | | |] eqn:F; cbn [bind] in H; repeat inv1.
    eapply fr_port; [eapply fclose_frame; eauto|reflexivity|rewrite (fclose_ports _ _ _ F); exact N| |]; [lat K CL|gd K].
  - repeat inv1. eapply (fr_port w w _ _ _ k _ p); [apply fr_refl|reflexivity|exact N| |]; [lat K CL|gd K].
  - repeat inv1. eapply (fr_port w w _ _ _ k _ p); [apply fr_refl|reflexivity|exact N| |]; [lat K CL|gd K].
  - repeat inv1. eapply (fr_port w w _ _ _ k _ p); [apply fr_refl|reflexivity|exact N| |]; [lat K CL|gd K].
  - destruct (call_slot c w (slot_at procs 4) []) as [o w1] eqn:CS.
    assert (X := call_slot_frame _ _ _ _ _ _ (Some k) None po CS).
    assert (frame w (set_port w1 k (mkPort (KSoft procs m) (pt_input p) true)) (Some k) None po).
    { eapply (fr_port w w1 _ _ _ k _ p); [exact X|reflexivity|rewrite (call_slot_ports _ _ _ _ _ _ CS); exact N| |]; [lat K CL|gd K]. }
    destruct o as [[]|]; repeat inv1; auto.
Qed.
Lemma read_frame c w k p a w' po : nth_error (w_ports w) k = Some p -> read_from c w k p = Ok (a, w') ->
  frame w w' (Some k) (file_of p) po.
Proof.
  intros N H. unfold read_from, file_of in *.
  destruct (pt_closed p) eqn:CL; [repeat inv1; apply fr_refl|].
  destruct (pt_kind p) as [[i|]|[i|]|q|q|procs m] eqn:K; try (repeat inv1; apply fr_refl).
  - destruct (fgetc c w i) as [[o w1]| | | |] eqn:F; cbn [bind] in H; repeat inv1. eapply fgetc_frame; eauto.
  - destruct (read_char_port q) as [[o w1]| | | |] eqn:F; cbn [bind] in H; try discriminate H. inversion H; subst. apply read_closed in F.
    eapply (fr_port w w _ _ _ k _ p); [apply fr_refl|reflexivity|exact N| |]; [lat K CL|gd K].
  - destruct (pt_input p); [|repeat inv1; apply fr_refl].
    destruct (call_slot c w (slot_at procs 3) []) as [o w1] eqn:CS.
    assert (X := call_slot_frame _ _ _ _ _ _ (Some k) None po CS).
    destruct o as [[]|]; repeat inv1; auto.
Qed.
Lemma peek_frame c w k p a w' po : peek_from c w p = Ok (a, w') -> frame w w' (Some k) (file_of p) po.
Proof.
  intros H. unfold peek_from, file_of in *.
  destruct (pt_closed p) eqn:CL; [repeat inv1; apply fr_refl|].
  destruct (pt_kind p) as [[i|]|[i|]|q|q|procs m] eqn:K; try (repeat inv1; apply fr_refl).
  destruct (fgetc c w i) as [[o w1]| | | |] eqn:F; cbn [bind] in H; try discriminate H.
  destruct o as [b|].
  - destruct (ungetc w1 i b) as [w2| | | |] eqn:U; cbn [bind] in H; try discriminate H. repeat inv1.
    eapply ungetc_frame; eauto. eapply fgetc_frame; eauto.
  - repeat inv1. eapply fgetc_frame; eauto.
Qed.
Lemma write_frame c w k p ch a w' po : nth_error (w_ports w) k = Some p -> write_char_to c w k p ch = Ok (a, w') ->
  frame w w' (Some k) (file_of p) po.
Proof.
  intros N H. unfold write_char_to, file_of in *.
  destruct (pt_closed p) eqn:CL; [repeat inv1; apply fr_refl|].
  destruct (pt_kind p) as [[i|]|[i|]|q|q|procs m] eqn:K; try (repeat inv1; apply fr_refl).
  - destruct (fput c w i [ch]) as [w1| | | |] eqn:F; cbn [bind] in H; repeat inv1. eapply fput_frame; eauto.
  - destruct (write_char_port q ch) as [q1| | | |] eqn:F; cbn [bind] in H; try discriminate H. inversion H; subst. apply wchar_closed in F.
    eapply (fr_port w w _ _ _ k _ p); [apply fr_refl|reflexivity|exact N| |]; [lat K CL|gd K].
  - destruct (pt_input p); [repeat inv1; apply fr_refl|].
    destruct (call_slot c w (slot_at procs 0) [ch]) as [o w1] eqn:CS.
    assert (X := call_slot_frame _ _ _ _ _ _ (Some k) None po CS).
    destruct o as [[]|]; repeat inv1; auto.
Qed.
Lemma print_frame c w k p ch a w' po : nth_error (w_ports w) k = Some p -> ch <> OpCloseOut -> print_to c w k p ch = Ok (a, w') ->
  frame w w' (Some k) (file_of p) po.
Proof.
  intros N NC H. unfold print_to, file_of in *.
  destruct (pt_closed p) eqn:CL; [repeat inv1; apply fr_refl|].
  destruct (pt_kind p) as [[i|]|[i|]|q|q|procs m] eqn:K; try (repeat inv1; apply fr_refl).
  - destruct (fput c w i _) as [w1| | | |] eqn:F; cbn [bind] in H; try discriminate H. inversion H; subst. eapply fput_frame; eauto.
  - destruct (oport_step q ch) as [q1| | | |] eqn:F; cbn [bind] in H; try discriminate H. inversion H; subst. apply ostep_closed in F; auto.
    eapply (fr_port w w _ _ _ k _ p); [apply fr_refl|reflexivity|exact N| |]; [lat K CL|gd K].
Qed.
Lemma flush_frame c w k p a w' po : flush_port c w p = Ok (a, w') -> frame w w' (Some k) (file_of p) po.
Proof.
  intros H. unfold flush_port, file_of in *.
  destruct (pt_closed p) eqn:CL; [repeat inv1; apply fr_refl|].
  destruct (pt_kind p) as [[i|]|[i|]|q|q|procs m] eqn:K; try (repeat inv1; apply fr_refl).
  - destruct (fflush w i) as [w1| | | |] eqn:F; cbn [bind] in H; repeat inv1. eapply fflush_frame; eauto.
  - destruct (pt_input p); [repeat inv1; apply fr_refl|].
    destruct (call_slot c w (slot_at procs 2) []) as [o w1] eqn:CS.
    assert (X := call_slot_frame _ _ _ _ _ _ (Some k) None po CS).
    destruct o as [[]|]; repeat inv1; auto.
Qed.

(** ** The port and FILE an operation is about *)
Definition opened (o : op) : option fpath :=
  match o with OpenOut (Some s) => Some (FName (until_nul s)) | _ => None end.
Definition handle_of (w : world) (o : op) : option nat :=
  if to_stdout o then Some 1
  else match target o with
       | Some k => match nth_error (w_ports w) k with Some p => file_of p | None => None end
       | None => None
       end.

Lemma ofile_frame w t g po i s : po = Some s -> i = length (w_handles w) -> (t = None) ->
  frame w (add_port (add_handle (set_file w s []) (HOut (mkHout s 0 []))) (mkPort (KFileOut (Some i)) false false)) t g po.
Proof.
  intros -> -> ->. apply fr_add_port; auto.
  - apply fr_add_handle; [|intros o [= <-]; reflexivity]. apply fr_file; [apply fr_refl|auto].
  - cbn. intros i [= <-]. rewrite app_length. cbn. lia.
  - unfold good. cbn. auto.
Qed.
Lemma ifile_frame w t g po i s : i = length (w_handles w) -> t = None ->
  frame w (add_port (add_handle w (HIn (mkHin s 0 [] false))) (mkPort (KFileIn (Some i)) true false)) t g po.
Proof.
  intros -> ->. apply fr_add_port; auto.
  - apply fr_add_handle; [apply fr_refl|intros o [=]].
  - cbn. intros i [= <-]. rewrite app_length. cbn. lia.
  - unfold good. cbn. auto.
Qed.
Lemma nport_frame w t g po p : good p -> file_of p = None -> t = None -> frame w (add_port w p) t g po.
Proof. intros GP E ->. apply fr_add_port; auto; [apply fr_refl|]. rewrite E. discriminate. Qed.

Ltac gnew := unfold good; cbn; auto.
Lemma opt_arg_cases a : (opt_arg a = None /\ no_port a = true /\ opt_target a = None) \/
  (exists b, opt_arg a = Some b /\ no_port a = false /\ opt_target a = arg_target b).
Proof. destruct a as [[k| |]|]; cbn; eauto 6. Qed.

Lemma prim_frame c w o a w' : prim c w o = Ok (a, w') -> frame w w' (target o) (handle_of w o) (opened o).
Proof.
  intros H. destruct o; cbn [prim target opened] in *.
  - unfold open_input_file in H. cbv zeta in H. repeat inv1; try apply fr_refl. now apply ifile_frame.
  - unfold open_output_file in H. cbv zeta in H. repeat inv1; try apply fr_refl. now apply ofile_frame.
  - unfold open_in_string in H. repeat inv1; try apply fr_refl. apply nport_frame; [gnew|reflexivity|reflexivity].
  - unfold open_out_string in H. repeat inv1; try apply fr_refl. apply nport_frame; [gnew|reflexivity|reflexivity].
  - unfold make_soft_port in H. destruct procs as [pv|]; [|repeat inv1; apply fr_refl].
    destruct modes as [m|]; [|repeat inv1; apply fr_refl].
    destruct ((length pv <? 5) || (6 <? length pv))%bool eqn:L; [repeat inv1; apply fr_refl|].
    destruct (has 114 m || has 119 m)%bool eqn:M; [|repeat inv1; apply fr_refl]. repeat inv1.
    apply nport_frame; [|reflexivity|reflexivity]. unfold good. cbn [pt_kind pt_input].
    apply orb_true_iff in M. apply orb_false_iff in L. destruct L as [L _]. apply Nat.ltb_ge in L. auto.
  - unfold close_in in H. destruct (get_port w a0) as [[k p]|] eqn:G; [|repeat inv1; apply fr_refl].
    apply get_port_nth in G. destruct G as [G ->]. unfold handle_of. cbn [to_stdout target arg_target]. rewrite G.
    destruct (pt_input p); [|repeat inv1; apply fr_refl]. eapply close_frame; eauto.
  - unfold close_out in H. destruct (get_port w a0) as [[k p]|] eqn:G; [|repeat inv1; apply fr_refl].
    apply get_port_nth in G. destruct G as [G ->]. unfold handle_of. cbn [to_stdout target arg_target]. rewrite G.
    destruct (pt_input p); [repeat inv1; apply fr_refl|]. eapply close_frame; eauto.
  - unfold get_string in H. repeat inv1; apply fr_refl.
  - unfold prim_read, handle_of in *. cbn [to_stdout target].
    destruct (opt_arg_cases a0) as [(E & _ & T)|(b & E & _ & T)]; rewrite E, T in *; [repeat inv1; apply fr_refl|].
    destruct (get_port w b) as [[k p]|] eqn:G; [|repeat inv1; apply fr_refl].
    apply get_port_nth in G. destruct G as [G ->]. cbn [arg_target]. rewrite G.
    destruct (match pt_kind p with KSoft _ m => soft_has 114 m | _ => pt_input p end); [|repeat inv1; apply fr_refl]. eapply read_frame; eauto.
  - unfold prim_peek, handle_of in *. cbn [to_stdout target].
    destruct (opt_arg_cases a0) as [(E & _ & T)|(b & E & _ & T)]; rewrite E, T in *; [repeat inv1; apply fr_refl|].
    destruct (get_port w b) as [[k p]|] eqn:G; [|repeat inv1; apply fr_refl].
    apply get_port_nth in G. destruct G as [G ->]. cbn [arg_target]. rewrite G.
    destruct (pt_input p); [|repeat inv1; apply fr_refl].
    destruct (peek_from c w p) as [[o w1]| | | |] eqn:P; cbn [bind] in H; repeat inv1. eapply peek_frame; eauto.
  - unfold prim_ready, handle_of in *. cbn [to_stdout target].
    destruct (opt_arg_cases a0) as [(E & _ & T)|(b & E & _ & T)]; rewrite E, T in *; [repeat inv1; apply fr_refl|].
    destruct (get_port w b) as [[k p]|] eqn:G; [|repeat inv1; apply fr_refl].
    apply get_port_nth in G. destruct G as [G ->]. cbn [arg_target]. rewrite G.
    destruct (pt_input p); [|repeat inv1; apply fr_refl]. destruct (pt_closed p) eqn:PC; [repeat inv1; apply fr_refl|].
    destruct (pt_kind p) as [[i|]|[i|]|q|q|procs m] eqn:K; try (repeat inv1; apply fr_refl).
    destruct (peek_from c w p) as [[o w1]| | | |] eqn:P; cbn [bind] in H; try discriminate H. inversion H; subst. eapply peek_frame; eauto.
  - unfold prim_write_char, handle_of in *. cbn [to_stdout target]. destruct ch as [ch|]; [|repeat inv1; apply fr_refl].
    destruct (opt_arg_cases a0) as [(E & N & T)|(b & E & N & T)]; rewrite E, T, N in *.
    { destruct (fput c w 1 [ch]) as [w1| | | |] eqn:F; cbn [bind] in H; repeat inv1. eapply fput_frame; eauto. }
    destruct (get_port w b) as [[k p]|] eqn:G; [|repeat inv1; apply fr_refl].
    apply get_port_nth in G. destruct G as [G ->]. cbn [arg_target]. rewrite G.
    destruct (match pt_kind p with KSoft _ m => soft_has 119 m | _ => negb (pt_input p) end); [|repeat inv1; apply fr_refl]. eapply write_frame; eauto.
  - unfold prim_print, handle_of in *. cbn [to_stdout target].
    destruct (opt_arg_cases a0) as [(E & N & T)|(b & E & N & T)]; rewrite E, T, N in *.
    { destruct (fput c w 1 text) as [w1| | | |] eqn:F; cbn [bind] in H; repeat inv1. eapply fput_frame; eauto. }
    destruct (get_port w b) as [[k p]|] eqn:G; [|repeat inv1; apply fr_refl].
    apply get_port_nth in G. destruct G as [G ->]. cbn [arg_target]. rewrite G.
    destruct (pt_input p); [repeat inv1; apply fr_refl|]. eapply print_frame; eauto; discriminate.
  - unfold prim_print, handle_of in *. cbn [to_stdout target].
    destruct (opt_arg_cases a0) as [(E & N & T)|(b & E & N & T)]; rewrite E, T, N in *.
    { destruct (fput c w 1 [10%Z]) as [w1| | | |] eqn:F; cbn [bind] in H; repeat inv1. eapply fput_frame; eauto. }
    destruct (get_port w b) as [[k p]|] eqn:G; [|repeat inv1; apply fr_refl].
    apply get_port_nth in G. destruct G as [G ->]. cbn [arg_target]. rewrite G.
    destruct (pt_input p); [repeat inv1; apply fr_refl|]. eapply print_frame; eauto; discriminate.
  - repeat inv1. apply fr_refl.
  - repeat inv1. apply fr_refl.
  - repeat inv1. apply fr_refl.
  - repeat inv1. apply fr_refl.
  - repeat inv1. apply fr_refl.
  - repeat inv1; try apply fr_refl; now apply (fr_same w w); [apply fr_refl| | |].
  - repeat inv1; try apply fr_refl; now apply (fr_same w w); [apply fr_refl| | |].
  - repeat inv1; try apply fr_refl; now apply (fr_same w w); [apply fr_refl| | |].
  - unfold prim_force, handle_of in *. cbn [to_stdout target].
    destruct (opt_arg_cases a0) as [(E & N & T)|(b & E & N & T)]; rewrite E, T, N in *.
    { destruct (fflush w 1) as [w1| | | |] eqn:F; cbn [bind] in H; repeat inv1. eapply fflush_frame; eauto. }
    destruct (get_port w b) as [[k p]|] eqn:G; [|repeat inv1; apply fr_refl].
    apply get_port_nth in G. destruct G as [G ->]. cbn [arg_target]. rewrite G.
    destruct (pt_input p); [repeat inv1; apply fr_refl|]. eapply flush_frame; eauto.
Qed.
Lemma step_frame c w o a w' : step c w o = Ok (a, w') -> frame w w' (target o) (handle_of w o) (opened o).
Proof.
  intros H. unfold step in H. apply prim_frame in H. destruct H; constructor; auto.
Qed.
