(** A file port that is the only writer of its file; a file port reading a file
    nobody writes. *)
From Coq Require Import Lia.
From Verif Require Import Base NumModel StringModel ParseModel PrintModel PortModel PortSpec PortProofs PsysModel PsysSpec PsysProofs.
Local Open Scope list_scope.
Local Open Scope nat_scope.

(** ** Well-formed worlds *)
Record wf (w : world) : Prop := {
  wf_good : all_good w;
  wf_lt : forall j p i, nth_error (w_ports w) j = Some p -> file_of p = Some i -> i < length (w_handles w);
  wf_uniq : forall j1 j2 p1 p2 i, nth_error (w_ports w) j1 = Some p1 -> nth_error (w_ports w) j2 = Some p2 ->
     file_of p1 = Some i -> file_of p2 = Some i -> j1 = j2;
  wf_std : forall j p, nth_error (w_ports w) j = Some p -> file_of p = Some 1 -> j = 2;
  wf_two : forall p i, nth_error (w_ports w) 2 = Some p -> file_of p = Some i -> i = 1;
  wf_two_out : forall p, nth_error (w_ports w) 2 = Some p -> pt_input p = false;
  wf_hlen : 3 <= length (w_handles w);
  wf_plen : 3 <= length (w_ports w) }.

Lemma wf_boot files input : wf (boot files input).
Proof.
  constructor; cbn [boot w_ports w_handles length]; try lia.
  - intros [|[|[|j]]] p H; cbn in H; try (destruct j; discriminate H); inversion H; subst; unfold good; cbn; auto.
  - intros [|[|[|j]]] p i H F; cbn in H; try (destruct j; discriminate H); inversion H; subst; cbn in F; inversion F; lia.
  - intros [|[|[|j1]]] j2 p1 p2 i H1 H2 F1 F2; cbn in H1; try (destruct j1; discriminate H1); inversion H1; subst; cbn in F1; inversion F1; subst;
    destruct j2 as [|[|[|j2]]]; cbn in H2; try (destruct j2; discriminate H2); inversion H2; subst; cbn in F2; inversion F2; auto.
  - intros [|[|[|j]]] p H F; cbn in H; try (destruct j; discriminate H); inversion H; subst; cbn in F; inversion F; auto.
  - intros p i H F. cbn in H. inversion H; subst. cbn in F. inversion F; auto.
  - intros p H. cbn in H. inversion H; auto.
Qed.

(* every port of the new world comes from an old one or is new *)
Lemma frame_origin w w' t g po j p' : frame w w' t g po -> nth_error (w_ports w') j = Some p' ->
  (exists p, nth_error (w_ports w) j = Some p /\ later p p' /\ (t <> Some j -> p' = p)) \/
  (j = length (w_ports w) /\ forall i, file_of p' = Some i -> length (w_handles w) <= i < length (w_handles w')).
Proof.
  intros F N. destruct (option_map (Nat.eqb j) t) as [[|]|] eqn:E.
  - destruct t as [t|]; [|discriminate E]. cbn in E. injection E as E'. apply Nat.eqb_eq in E'. subst t.
    destruct (f_self _ _ _ _ _ F j p' eq_refl N) as (p & A & B). left. exists p. repeat split; auto; try apply B. contradiction.
  - assert (T : t <> Some j). { intros ->. cbn in E. rewrite Nat.eqb_refl in E. discriminate E. }
    destruct (f_new _ _ _ _ _ F j p' N T) as [A|A]; auto. left. exists p'. repeat split; auto. apply later_refl.
  - assert (T : t <> Some j). { intros ->. cbn in E. discriminate E. }
    destruct (f_new _ _ _ _ _ F j p' N T) as [A|A]; auto. left. exists p'. repeat split; auto. apply later_refl.
Qed.
Lemma later_file p p' i : later p p' -> file_of p' = Some i -> file_of p = Some i.
Proof. intros (_ & _ & [A|A] & _) B; congruence. Qed.
(* at most one new port per step *)
Lemma wf_frame w w' t g po : wf w -> frame w w' t g po -> wf w'.
Proof.
  intros W F. constructor.
  - apply (f_good _ _ _ _ _ F), W.
  - intros j p i N E. destruct (frame_origin _ _ _ _ _ _ _ F N) as [(q & A & B & _)|[A B]].
    + apply (later_file _ _ _ B) in E. pose proof (wf_lt _ W _ _ _ A E). pose proof (f_hlen _ _ _ _ _ F). lia.
    + apply B. auto.
  - intros j1 j2 p1 p2 i N1 N2 E1 E2.
    destruct (frame_origin _ _ _ _ _ _ _ F N1) as [(q1 & A1 & B1 & _)|[A1 B1]];
    destruct (frame_origin _ _ _ _ _ _ _ F N2) as [(q2 & A2 & B2 & _)|[A2 B2]].
    + eapply (wf_uniq _ W); eauto using later_file.
    + apply (later_file _ _ _ B1) in E1. pose proof (wf_lt _ W _ _ _ A1 E1). apply B2 in E2. lia.
    + apply (later_file _ _ _ B2) in E2. pose proof (wf_lt _ W _ _ _ A2 E2). apply B1 in E1. lia.
    + apply nth_lt in N1. apply nth_lt in N2. lia.
  - intros j p N E. destruct (frame_origin _ _ _ _ _ _ _ F N) as [(q & A & B & _)|[A B]].
    + eapply (wf_std _ W); eauto using later_file.
    + apply B in E. pose proof (wf_hlen _ W). lia.
  - intros p i N E. destruct (frame_origin _ _ _ _ _ _ _ F N) as [(q & A & B & _)|[A B]].
    + eapply (wf_two _ W); eauto using later_file.
    + pose proof (wf_plen _ W). lia.
  - intros p N. destruct (frame_origin _ _ _ _ _ _ _ F N) as [(q & A & (B & _) & _)|[A B]].
    + rewrite B. eapply (wf_two_out _ W); eauto.
    + pose proof (wf_plen _ W). lia.
  - pose proof (wf_hlen _ W). pose proof (f_hlen _ _ _ _ _ F). lia.
  - pose proof (wf_plen _ W). pose proof (f_plen _ _ _ _ _ F). lia.
Qed.

Lemma wf_step c w o a w' : wf w -> step c w o = Ok (a, w') -> wf w'.
Proof. intros W H. eapply wf_frame; eauto using step_frame. Qed.
Lemma run_cons c w o h l w' : run c w (o :: h) = Ok (l, w') ->
  exists a l1 w1, step c w o = Ok (a, w1) /\ run c w1 h = Ok (l1, w') /\ l = a :: l1.
Proof.
  cbn [run]. intros H. destruct (step c w o) as [[a w1]| | | |]; cbn [bind] in H; try discriminate H.
  destruct (run c w1 h) as [[l1 w2]| | | |] eqn:R; cbn [bind] in H; try discriminate H. inversion H; subst. eauto 6.
Qed.
Lemma run_app : forall c h1 w h2 l w', run c w (h1 ++ h2) = Ok (l, w') ->
  exists l1 l2 w1, run c w h1 = Ok (l1, w1) /\ run c w1 h2 = Ok (l2, w') /\ l = l1 ++ l2.
Proof.
  intros c. induction h1 as [|o h1 IH]; intros w h2 l w' H.
  - exists [], l, w. auto.
  - cbn [app] in H. apply run_cons in H. destruct H as (a & l1 & w1 & A & B & ->).
    apply IH in B. destruct B as (l2 & l3 & w2 & B & C & ->). exists (a :: l2), l3, w2. cbn [run]. rewrite A. cbn [bind]. rewrite B. auto.
Qed.
Lemma wf_run c h : forall w l w', wf w -> run c w h = Ok (l, w') -> wf w'.
Proof.
  induction h as [|o h IH]; intros w l w' W H.
  - now inversion H; subst.
  - apply run_cons in H. destruct H as (a & l1 & w1 & A & B & ->). eauto using wf_step.
Qed.
Lemma wf_reachable c w : reachable c w -> wf w.
Proof. intros (f & i & h & l & H). eapply wf_run; eauto. apply wf_boot. Qed.

(** ** The only writer of a file *)
(* [cont] is in the file, [pend] still in the FILE's buffer *)
Record writer (k i : nat) (p : fpath) (w : world) (cont pend : list Z) : Prop := {
  wr_port : nth_error (w_ports w) k = Some (mkPort (KFileOut (Some i)) false false);
  wr_file : nth_error (w_handles w) i = Some (HOut (mkHout p (length cont) pend));
  wr_cont : w_files w p = Some cont;
  wr_sole : forall j o, nth_error (w_handles w) j = Some (HOut o) -> ho_path o = p -> j = i }.
Record written_off (k : nat) (p : fpath) (w : world) (cont : list Z) : Prop := {
  wo_port : nth_error (w_ports w) k = Some (mkPort (KFileOut None) false true);
  wo_cont : w_files w p = Some cont;
  wo_sole : no_writer w p }.

Lemma frame_no_writer w w' t g po p : frame w w' t g po -> po <> Some p -> no_writer w p -> no_writer w' p.
Proof.
  intros F O N i o A. destruct (Nat.lt_ge_cases i (length (w_handles w))) as [L|L].
  - destruct (option_map (Nat.eqb i) g) as [b|] eqn:E.
    + destruct g as [g|]; [|discriminate E]. destruct (Nat.eq_dec g i) as [-> |NE].
      * destruct (f_hself _ _ _ _ _ F i o eq_refl L A) as (o0 & B & ->). eauto.
      * rewrite (f_hkeep _ _ _ _ _ F i L) in A by congruence. eauto.
    + destruct g; [discriminate E|]. rewrite (f_hkeep _ _ _ _ _ F i L) in A by congruence. eauto.
  - apply (f_hnew _ _ _ _ _ F) in A; auto. congruence.
Qed.
Lemma frame_content w w' t g po p : frame w w' t g po -> po <> Some p -> no_writer w p -> w_files w' p = w_files w p.
Proof.
  intros F O N. destruct (f_files _ _ _ _ _ F p) as [A|[A|(i & o & _ & A & B)]]; auto; [contradiction|].
  exfalso. exact (N i o A B).
Qed.
Lemma frame_writer k i p w w' t g po cont pend : wf w -> frame w w' t g po -> po <> Some p -> t <> Some k -> g <> Some i ->
  writer k i p w cont pend -> writer k i p w' cont pend.
Proof.
  intros W F O T G []. assert (L := nth_lt _ _ _ wr_file0). constructor.
  - eapply f_keep; eauto.
  - rewrite (f_hkeep _ _ _ _ _ F); auto.
  - destruct (f_files _ _ _ _ _ F p) as [A|[A|(j & o & A & B & C)]]; [congruence|contradiction|].
    rewrite (wr_sole0 j o B C) in A. congruence.
  - intros j o A B. destruct (Nat.lt_ge_cases j (length (w_handles w))) as [LJ|LJ].
    + destruct g as [g|].
      * destruct (Nat.eq_dec g j) as [-> |NE].
        -- destruct (f_hself _ _ _ _ _ F j o eq_refl LJ A) as (o0 & A0 & E). apply (wr_sole0 j o0); congruence.
        -- rewrite (f_hkeep _ _ _ _ _ F j LJ) in A by congruence. eauto.
      * rewrite (f_hkeep _ _ _ _ _ F j LJ) in A by congruence. eauto.
    + apply (f_hnew _ _ _ _ _ F) in A; auto. congruence.
Qed.
Lemma frame_off k p w w' t g po cont : frame w w' t g po -> po <> Some p -> 
  written_off k p w cont -> written_off k p w' cont.
Proof.
  intros F O [A B C]. constructor.
  - destruct (option_map (Nat.eqb k) t) as [[|]|] eqn:E.
    + destruct t as [t|]; [|discriminate E]. cbn in E. injection E as E'. apply Nat.eqb_eq in E'. subst t.
      assert (K := nth_lt _ _ _ A). pose proof (f_plen _ _ _ _ _ F).
      destruct (nth_error (w_ports w') k) as [q|] eqn:Q; [|apply nth_error_None in Q; lia].
      destruct (f_self _ _ _ _ _ F k q eq_refl Q) as (q0 & D & (_ & G & _)). rewrite A in D. inversion D; subst q0.
      rewrite (G eq_refl). reflexivity.
    + eapply f_keep; eauto. intros ->. cbn in E. rewrite Nat.eqb_refl in E. discriminate E.
    + eapply f_keep; eauto. intros ->. discriminate E.
  - rewrite (frame_content _ _ _ _ _ _ F O C). auto.
  - eapply frame_no_writer; eauto.
Qed.

(* [s] bytes more pending, then [n] bytes moved to the file *)
Lemma push_writer k i p w cont pend pend' n : writer k i p w cont pend ->
  writer k i p (push w i (mkHout p (length cont) pend') n) (cont ++ firstn n pend') (skipn n pend').
Proof.
  intros []. assert (L := nth_lt _ _ _ wr_file0).
  unfold push. cbn [ho_path ho_off ho_pend]. unfold content. rewrite wr_cont0, overwrite_end.
  constructor; cbn [set_handle set_file w_ports w_handles w_files].
  - auto.
  - rewrite set_nth_same by auto. now rewrite app_length.
  - now rewrite path_eqb_refl.
  - intros j o A B. destruct (Nat.eq_dec j i) as [|NE]; auto. rewrite set_nth_other in A by auto. eauto.
Qed.
Lemma fput_writer c k i p w cont pend s w' : writer k i p w cont pend -> fput c w i s = Ok w' ->
  exists n, writer k i p w' (cont ++ firstn n (pend ++ s)) (skipn n (pend ++ s)).
Proof.
  intros W H. unfold fput in H. rewrite (wr_file _ _ _ _ _ _ W) in H. cbv zeta in H. cbn [ho_path ho_off ho_pend] in H.
  inversion H; subst. eexists. eapply push_writer; eauto.
Qed.
Lemma fflush_writer k i p w cont pend w' : writer k i p w cont pend -> fflush w i = Ok w' ->
  writer k i p w' (cont ++ pend) [].
Proof.
  intros W H. unfold fflush in H. rewrite (wr_file _ _ _ _ _ _ W) in H. cbn [ho_path ho_off ho_pend] in H. inversion H; subst.
  eapply (push_writer _ _ _ _ _ _ pend (length pend)) in W. now rewrite firstn_all, skipn_all in W.
Qed.
Lemma fclose_writer k i p w cont pend w' : writer k i p w cont pend -> fclose w i = Ok w' ->
  written_off k p (set_port w' k (mkPort (KFileOut None) false true)) (cont ++ pend).
Proof.
  intros W H. unfold fclose in H. rewrite (wr_file _ _ _ _ _ _ W) in H. cbn [ho_path ho_off ho_pend] in H. inversion H; subst.
  eapply (push_writer _ _ _ _ _ _ pend (length pend)) in W. rewrite firstn_all, skipn_all in W.
  set (w1 := push w i (mkHout p (length cont) pend) (length pend)) in *. clearbody w1. destruct W.
  constructor; cbn [set_handle set_port w_ports w_handles w_files].
  - apply set_nth_same. eapply nth_lt; eauto.
  - auto.
  - intros j o A B. cbn [set_handle set_port w_handles] in A. destruct (Nat.eq_dec j i) as [-> |NE].
    + rewrite set_nth_same in A by (eapply nth_lt; eauto). discriminate A.
    + rewrite set_nth_other in A by auto. apply NE. eauto.
Qed.

(* the bytes an operation sends to port [k] *)
Definition bytes_of (o : oop) : list Z :=
  match o with OpChar b => [b] | OpNewline => [10%Z] | OpText t => until_nul t | OpCloseOut => [] end.
Definition sends (k : nat) (o : op) : list Z :=
  match on_out k o with Some x => bytes_of x | None => if to_stdout o && Nat.eqb k 2 then default_output [o] else [] end.
Definition closes_out (k : nat) (o : op) : bool := match on_out k o with Some OpCloseOut => true | _ => false end.
Definition flushes (k : nat) (o : op) : bool :=
  match o with ForceOutput (Some (APort j)) => Nat.eqb j k | ForceOutput a => no_port a && Nat.eqb k 2 | _ => false end.

Lemma tick_writer k i p w cont pend : writer k i p w cont pend -> writer k i p (tick w) cont pend.
Proof. intros []. constructor; auto. Qed.

(* the state of the port after one more operation *)
Definition writer_next (k : nat) (p : fpath) (w' : world) (acc : list Z) (o : op) : Prop :=
  if closes_out k o then written_off k p w' acc
  else exists i cont pend, writer k i p w' cont pend /\ acc ++ sends k o = cont ++ pend /\ (flushes k o = true -> pend = []).

Lemma split_acc (cont pend s : list Z) n : (cont ++ pend) ++ s = (cont ++ firstn n (pend ++ s)) ++ skipn n (pend ++ s).
Proof. rewrite <- app_assoc, <- (app_assoc cont). now rewrite firstn_skipn. Qed.

Lemma on_out_target k o x : on_out k o = Some x -> target o = Some k.
Proof.
  destruct o; cbn [on_out target]; try discriminate;
  repeat match goal with
  | a : option arg |- _ => destruct a as [[]|]; try discriminate
  | a : arg |- _ => destruct a; try discriminate
  | ch : option Z |- _ => destruct ch; try discriminate
  end; cbn; match goal with |- context [Nat.eqb ?j k] => destruct (Nat.eqb_spec j k) end; intros; congruence.
Qed.
Lemma stdout_target o : to_stdout o = true -> target o = None.
Proof. destruct o; cbn; try discriminate; repeat match goal with a : option arg |- _ => destruct a as [[]|]; cbn; try discriminate end; auto. Qed.
Lemma handle_of_target w o k p i : wf w -> nth_error (w_ports w) k = Some p -> file_of p = Some i -> handle_of w o = Some i ->
  target o = Some k \/ (to_stdout o = true /\ k = 2).
Proof.
  intros W N F H. unfold handle_of in H. destruct (to_stdout o) eqn:S.
  - right. split; auto. assert (i = 1) by congruence. subst i. eapply (wf_std _ W); eauto.
  - left. destruct (target o) as [j|]; [|discriminate H]. destruct (nth_error (w_ports w) j) as [q|] eqn:Q; [|discriminate H].
    f_equal. eapply (wf_uniq _ W); eauto.
Qed.

Ltac osimp := cbn [on_out on_in arg_target opt_target opt_arg no_port]; rewrite ?Nat.eqb_refl.
Lemma writer_step c k i p w cont pend o a w' : wf w -> writer k i p w cont pend -> opened o <> Some p ->
  step c w o = Ok (a, w') -> writer_next k p w' (cont ++ pend) o.
Proof.
  intros W J O H. assert (F := step_frame _ _ _ _ _ H).
  assert (P := wr_port _ _ _ _ _ _ J). apply tick_writer in J. unfold step in H.
  assert (D : target o = Some k \/ target o <> Some k).
  { destruct (target o) as [t|]; [destruct (Nat.eq_dec t k); [left|right]|right]; congruence. }
  destruct D as [T'|T'].
  { (* on this port *)
    assert (G : get_port (tick w) (APort k) = Some (k, mkPort (KFileOut (Some i)) false false)).
    { cbn [get_port tick w_ports]. now rewrite P. }
    assert (NOP : forall q, w' = tick w -> closes_out k q = false -> sends k q = [] -> flushes k q = false -> writer_next k p w' (cont ++ pend) q).
    { intros q -> A B C. unfold writer_next. rewrite A, B, C, app_nil_r. exists i, cont, pend. split; [exact J|split; [reflexivity|discriminate]]. }
    destruct o; cbn [target] in T'; try discriminate T';
    repeat match goal with
    | a : option arg |- _ => destruct a as [[]|]; try discriminate T'
    | a : arg |- _ => destruct a; try discriminate T'
    end; injection T' as T'; subst; cbn [prim] in H.
    - unfold close_in in H. rewrite G in H. cbn [pt_input] in H. inversion H; subst. now apply NOP.
    - unfold close_out in H. rewrite G in H. cbn [pt_input] in H. unfold close_port in H. cbn [pt_closed pt_kind pt_input] in H.
      destruct (fclose (tick w) i) as [w1| | | |] eqn:C; cbn [bind] in H; try discriminate H. inversion H; subst.
      unfold writer_next, closes_out. osimp. eapply fclose_writer; eauto.
    - unfold get_string in H. rewrite G in H. cbn [pt_kind] in H. inversion H; subst. now apply NOP.
    - unfold prim_read in H. cbn [opt_arg] in H. rewrite G in H. cbv zeta in H. cbn [pt_kind pt_input] in H. inversion H; subst. now apply NOP.
    - unfold prim_peek in H. cbn [opt_arg] in H. rewrite G in H. cbn [pt_kind pt_input] in H. inversion H; subst. now apply NOP.
    - unfold prim_ready in H. cbn [opt_arg] in H. rewrite G in H. cbn [pt_kind pt_input] in H. inversion H; subst. now apply NOP.
    - unfold prim_write_char in H. destruct ch as [b|]; [|inversion H; subst; now apply NOP].
      cbn [opt_arg] in H. rewrite G in H. cbv zeta in H. cbn [pt_kind pt_input negb] in H. unfold write_char_to in H. cbn [pt_closed pt_kind] in H.
      destruct (fput c (tick w) i [b]) as [w1| | | |] eqn:C; cbn [bind] in H; try discriminate H. inversion H; subst.
      eapply fput_writer in C; eauto. destruct C as (n & C).
      unfold writer_next, closes_out, sends, flushes. osimp. cbn [bytes_of]. eexists _, _, _. split; [exact C|]. split; [apply split_acc|intros [=]].
    - unfold prim_print in H. 
      cbn [opt_arg] in H. rewrite G in H. cbn [pt_kind pt_input negb] in H. unfold print_to in H. cbn [pt_closed pt_kind] in H.
      destruct (fput c (tick w) i (until_nul text)) as [w1| | | |] eqn:C; cbn [bind] in H; try discriminate H. inversion H; subst.
      eapply fput_writer in C; eauto. destruct C as (n & C).
      unfold writer_next, closes_out, sends, flushes. osimp. cbn [bytes_of]. eexists _, _, _. split; [exact C|]. split; [apply split_acc|intros [=]].
    - unfold prim_print in H. 
      cbn [opt_arg] in H. rewrite G in H. cbn [pt_kind pt_input negb] in H. unfold print_to in H. cbn [pt_closed pt_kind] in H.
      destruct (fput c (tick w) i [10%Z]) as [w1| | | |] eqn:C; cbn [bind] in H; try discriminate H. inversion H; subst.
      eapply fput_writer in C; eauto. destruct C as (n & C).
      unfold writer_next, closes_out, sends, flushes. osimp. cbn [bytes_of]. eexists _, _, _. split; [exact C|]. split; [apply split_acc|intros [=]].
    - unfold prim_force in H. 
      cbn [opt_arg] in H. rewrite G in H. cbn [pt_kind pt_input negb] in H. unfold flush_port in H. cbn [pt_closed pt_kind] in H.
      destruct (fflush (tick w) i) as [w1| | | |] eqn:C; cbn [bind] in H; try discriminate H. inversion H; subst.
      eapply fflush_writer in C; eauto.
      unfold writer_next, closes_out, sends, flushes. osimp. cbn [to_stdout no_port andb]. eexists _, _, _. split; [exact C|]. now rewrite !app_nil_r. }
  assert (ON : on_out k o = None) by (destruct (on_out k o) eqn:E; auto; apply on_out_target in E; contradiction).
  destruct (to_stdout o && Nat.eqb k 2)%bool eqn:ST.
  - (* to stdout *)
    assert (i = 1). { apply andb_true_iff in ST. destruct ST as [_ ST]. apply Nat.eqb_eq in ST. subst k. eapply (wf_two _ W); eauto. }
    subst i. assert (K2 : Nat.eqb k 2 = true) by (apply andb_true_iff in ST; apply ST).
    assert (TS : to_stdout o = true) by (apply andb_true_iff in ST; apply ST).
    unfold writer_next, closes_out, sends. rewrite ON, ST.
    destruct o; cbn [to_stdout] in TS; try discriminate TS; cbn [prim] in H;
      (destruct (opt_arg_cases a0) as [(E & N & _)|(b & E & N & _)]; [|rewrite N in TS; discriminate TS]).
    + unfold prim_write_char in H. rewrite E in H. destruct ch as [b|].
      * destruct (fput c (tick w) 1 [b]) as [w1| | | |] eqn:C; cbn [bind] in H; try discriminate H. inversion H; subst.
        eapply fput_writer in C; eauto. destruct C as (n & C). cbn [default_output]. rewrite N.
        eexists _, _, _. split; [exact C|]. split; [apply split_acc|intros [=]].
      * inversion H; subst. cbn [default_output]. exists 1, cont, pend. split; [exact J|]. rewrite app_nil_r. split; [reflexivity|intros [=]].
    + unfold prim_print in H. rewrite E in H. 
      destruct (fput c (tick w) 1 text) as [w1| | | |] eqn:C; cbn [bind] in H; try discriminate H. inversion H; subst.
      eapply fput_writer in C; eauto. destruct C as (n & C). cbn [default_output]. rewrite N, app_nil_r.
      eexists _, _, _. split; [exact C|]. split; [apply split_acc|intros [=]].
    + unfold prim_print in H. rewrite E in H. 
      destruct (fput c (tick w) 1 [10%Z]) as [w1| | | |] eqn:C; cbn [bind] in H; try discriminate H. inversion H; subst.
      eapply fput_writer in C; eauto. destruct C as (n & C). cbn [default_output]. rewrite N.
      eexists _, _, _. split; [exact C|]. split; [apply split_acc|intros [=]].
    + unfold prim_force in H. rewrite E in H. 
      destruct (fflush (tick w) 1) as [w1| | | |] eqn:C; cbn [bind] in H; try discriminate H. inversion H; subst.
      eapply fflush_writer in C; eauto. cbn [default_output].
      eexists _, _, _. split; [exact C|]. rewrite !app_nil_r. auto.
  - eapply (frame_writer k i p w w') in F; eauto.
    + unfold writer_next, closes_out, sends. rewrite ON, ST, app_nil_r. exists i, cont, pend. split; [exact F|]. split; [reflexivity|].
      intros FL. exfalso. destruct o; cbn [flushes] in FL; try discriminate FL. cbn [to_stdout target] in *.
      destruct a0 as [[j| |]|]; cbn [opt_target] in T'; try (rewrite FL in ST; discriminate ST); try discriminate FL.
      apply Nat.eqb_eq in FL. subst j. contradiction.
    + intros E. apply (handle_of_target w o k _ i W P eq_refl) in E. destruct E as [E|[E ->]]; [contradiction|]. rewrite E in ST. discriminate ST.
    + destruct J; constructor; auto.
Qed.
Lemma off_step c k p w acc o a w' : written_off k p w acc -> opened o <> Some p -> step c w o = Ok (a, w') -> written_off k p w' acc.
Proof. intros J O H. eapply frame_off; eauto using step_frame. Qed.

(** ** Histories of a writer *)
Definition sent_all (k : nat) (h : list op) : list Z := flat_map (sends k) h.
Fixpoint sent_open (k : nat) (h : list op) : list Z :=
  match h with [] => [] | o :: r => if closes_out k o then [] else sends k o ++ sent_open k r end.
Fixpoint closed_by (k : nat) (h : list op) : bool :=
  match h with [] => false | o :: r => closes_out k o || closed_by k r end.
Lemma off_run c k p : forall h w acc l w', written_off k p w acc -> (forall o, In o h -> opened o <> Some p) ->
  run c w h = Ok (l, w') -> written_off k p w' acc.
Proof.
  induction h as [|o h IH]; intros w acc l w' J N H; [now inversion H; subst|].
  apply run_cons in H. destruct H as (a & l1 & w1 & A & B & ->).
  eapply IH; [|intros o' I; apply N; now right|exact B]. eapply off_step; eauto. apply N. now left.
Qed.
Lemma writer_run c k p : forall h w i cont pend l w', wf w -> writer k i p w cont pend -> (forall o, In o h -> opened o <> Some p) ->
  run c w h = Ok (l, w') ->
  if closed_by k h then written_off k p w' (cont ++ pend ++ sent_open k h)
  else exists i' cont' pend', writer k i' p w' cont' pend' /\ cont ++ pend ++ sent_open k h = cont' ++ pend' /\
     forall h0 o, h = h0 ++ [o] -> flushes k o = true -> pend' = [].
Proof.
  induction h as [|o h IH]; intros w i cont pend l w' W J N H.
  - inversion H; subst. cbn [closed_by sent_open]. exists i, cont, pend. split; auto. rewrite !app_nil_r. split; auto.
    intros h0 o E. destruct h0; discriminate E.
  - apply run_cons in H. destruct H as (a & l1 & w1 & A & B & ->).
    assert (NX := writer_step _ _ _ _ _ _ _ _ _ _ W J (N o (or_introl eq_refl)) A). unfold writer_next in NX.
    cbn [closed_by sent_open]. destruct (closes_out k o); cbn [orb].
    + rewrite app_nil_r. exact (off_run _ _ _ _ _ _ _ _ NX (fun o' I => N o' (or_intror I)) B).
    + destruct NX as (i1 & c1 & p1 & J1 & E1 & F1).
      assert (W1 := wf_step _ _ _ _ _ W A).
      specialize (IH w1 i1 c1 p1 l1 w' W1 J1 (fun o' I => N o' (or_intror I)) B).
      assert (EQ : cont ++ pend ++ sends k o ++ sent_open k h = c1 ++ p1 ++ sent_open k h).
      { rewrite (app_assoc c1), <- E1. now rewrite !app_assoc. }
      rewrite EQ. destruct (closed_by k h); auto. destruct IH as (i2 & c2 & p2 & J2 & E2 & F2).
      exists i2, c2, p2. split; auto. split; auto. intros h0 o0 Q FL. destruct h0 as [|o1 h0].
      * assert (X : h = [] /\ o0 = o) by (inversion Q; auto). destruct X as [-> ->]. cbn [sent_open] in E2.
        inversion B; subst w'. assert (PN := F1 FL). rewrite PN in E2. cbn [app] in E2. rewrite app_nil_r in E2.
        pose proof (wr_cont _ _ _ _ _ _ J1) as C1. pose proof (wr_cont _ _ _ _ _ _ J2) as C2. rewrite C1 in C2. injection C2 as C2. subst c2.
        rewrite <- (app_nil_r c1) in E2 at 1. now apply app_inv_head in E2.
      * injection Q as _ Q. eapply F2; eauto.
Qed.
