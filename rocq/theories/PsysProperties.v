(** C88: file ports.  [world] is the state of the process: the file system,
    stdio's FILEs, the ports; [cfg] is everything the environment may choose
    (buffering, permissions, the answers of soft-port procedures).  [step] is one
    call of a port primitive, [run] a history of calls; port numbers stand for
    the port objects a program holds.  Vocabulary: PsysSpec. *)
From Coq Require Import Lia String.
From Verif Require Import Base NumModel StringModel ParseModel PrintModel PortModel PortSpec PortProofs PsysModel PsysSpec PsysProofs PsysProofs2 PsysProofs3 PsysProofs4.
Local Open Scope list_scope.
Local Open Scope nat_scope.

(** ** Relating the proofs' vocabulary to the specification's *)
Lemma closed_by_in k h : closed_by k h = true <-> In (CloseOut (APort k)) h.
Proof.
  induction h as [|o h IH]; cbn [closed_by In]; [split; [discriminate | tauto]|].
  rewrite orb_true_iff, IH. split; intros [A | A]; auto; left.
  - unfold closes_out in A. destruct o as [| | | | | |b| | | | |ch b|tx b|b| | | | | | | | |]; cbn [on_out] in A;
    try destruct ch as [ch|]; try destruct b as [b|]; try destruct b; try discriminate A;
    match type of A with context [Nat.eqb ?x ?y] => destruct (Nat.eqb_spec x y); try discriminate A; now subst end.
  - subst o. unfold closes_out. cbn [on_out]. now rewrite Nat.eqb_refl.
Qed.
Lemma until_nul_id t : ~ In 0%Z t -> until_nul t = t.
Proof.
  induction t as [|c t IH]; intros N; cbn; auto. destruct (Z.eqb_spec c 0) as [-> | NE].
  - elim N. now left.
  - f_equal. apply IH. intros A. apply N. now right.
Qed.
Lemma sent_open_sent k h : k <> 2 -> no_nul k h -> sent_open k h = sent k h.
Proof.
  intros K. induction h as [|o h IH]; intros N; auto.
  unfold no_nul, sent, closes_out, sends in *. cbn [sent_open view_out] in *.
  unfold closes_out, sends in *.
  destruct (on_out k o) as [x|] eqn:E.
  - assert (N' : nul_free (view_out k h)) by (intros t I; apply N; now right).
    specialize (IH N'). destruct x; cbn [written bytes_of app]; rewrite ?IH; auto.
    f_equal. apply until_nul_id. apply N. now left.
  - rewrite (proj2 (Nat.eqb_neq _ _) K), andb_false_r. cbn [app]. auto.
Qed.
Lemma opened_name p h : never_opens_out p h -> forall o, In o h -> opened o <> Some (FName p).
Proof.
  intros N o I E. destruct o as [|[s|]| | | | | | | | | | | | | | | | | | | | |]; cbn [opened] in E; try discriminate E.
  apply (N s I). injection E as E. exact E.
Qed.

Lemma open_out_inv c w s k w1 : step c w (OpenOut (Some s)) = Ok (RPort k, w1) ->
  k = length (w_ports w) /\ c_may c (FName (until_nul s)) true = true /\
  w1 = add_port (add_handle (set_file (tick w) (FName (until_nul s)) []) (HOut (mkHout (FName (until_nul s)) 0 [])))
         (mkPort (KFileOut (Some (length (w_handles w)))) false false).
Proof.
  unfold step. cbn [prim open_output_file]. destruct (c_may c (FName (until_nul s)) true) eqn:M; [|discriminate].
  intros H. cbn [tick w_ports w_handles] in H. injection H as H1 H2. subst. auto.
Qed.
Lemma open_in_inv c w s k w1 : step c w (OpenIn (Some s)) = Ok (RPort k, w1) ->
  k = length (w_ports w) /\ c_may c (FName (until_nul s)) false = true /\
  w1 = add_port (add_handle (tick w) (HIn (mkHin (FName (until_nul s)) 0 [] false)))
         (mkPort (KFileIn (Some (length (w_handles w)))) true false).
Proof.
  unfold step. cbn [prim open_input_file]. destruct (w_files (tick w) (FName (until_nul s))) eqn:F; [|discriminate].
  destruct (c_may c (FName (until_nul s)) false) eqn:M; [|discriminate].
  intros H. cbn [tick w_ports w_handles] in H. injection H as H1 H2. subst. auto.
Qed.
Lemma open_writer c w s k w1 : wf w -> no_writer w (FName (until_nul s)) -> step c w (OpenOut (Some s)) = Ok (RPort k, w1) ->
  writer k (length (w_handles w)) (FName (until_nul s)) w1 [] [].
Proof.
  intros W N H. apply open_out_inv in H. destruct H as (-> & M & ->).
  constructor; cbn [add_port add_handle set_file tick w_ports w_handles w_files].
  - apply nth_app_last.
  - apply nth_app_last.
  - now rewrite path_eqb_refl.
  - intros j o A B. apply nth_app_one in A. destruct A as [A | [A _]]; auto. elim (N j o A B).
Qed.
Lemma reachable_run c w h l w' : reachable c w -> run c w h = Ok (l, w') -> reachable c w'.
Proof.
  intros (fs & inp & h0 & l0 & A) B. exists fs, inp, (h0 ++ h), (l0 ++ l). clear - A B.
  revert l0 A. generalize (boot fs inp). induction h0 as [|o h0 IH]; intros w0 l0 A; cbn [run app] in *.
  - injection A as A1 A2. now subst.
  - destruct (step c w0 o) as [[a w1]| | | |]; cbn [bind] in *; try discriminate A.
    destruct (run c w1 h0) as [[l1 w2]| | | |] eqn:E; cbn [bind] in *; try discriminate A.
    injection A as A1 A2. subst. rewrite (IH _ _ E). reflexivity.
Qed.
Lemma reachable_step c w o a w' : reachable c w -> step c w o = Ok (a, w') -> reachable c w'.
Proof.
  intros R H. apply (reachable_run c w [o] [a] w' R). cbn [run]. now rewrite H.
Qed.

(** ** Output files *)
(* From the moment a file is opened for output, whatever else the program does
   with other ports and files, the file holds a prefix of what was written to
   that port; all of it once the port is closed, or flushed last. *)
Theorem c88_written : forall c w name k w1 h l w2,
  reachable c w -> no_writer w (FName (until_nul name)) ->
  step c w (OpenOut (Some name)) = Ok (RPort k, w1) ->
  never_opens_out (until_nul name) h -> no_nul k h ->
  run c w1 h = Ok (l, w2) ->
  exists s, on_disk w2 (until_nul name) s /\ is_prefix s (sent k h) /\
    (In (CloseOut (APort k)) h \/ (exists h0, h = h0 ++ [ForceOutput (Some (APort k))]) -> s = sent k h).
Proof.
  intros c w name k w1 h l w2 R N O NO NN H. assert (W := wf_reachable _ _ R).
  assert (J := open_writer _ _ _ _ _ W N O).
  assert (K : k <> 2). { destruct (open_out_inv _ _ _ _ _ O) as (-> & _). pose proof (wf_plen _ W). lia. }
  assert (W1 := wf_step _ _ _ _ _ W O).
  assert (G := writer_run _ _ _ _ _ _ _ _ _ _ W1 J (opened_name _ _ NO) H). cbn [app] in G.
  rewrite (sent_open_sent _ _ K NN) in G.
  destruct (closed_by k h) eqn:C.
  - exists (sent k h). split; [exact (wo_cont _ _ _ _ G)|]. split; auto. exists []. now rewrite app_nil_r.
  - destruct G as (i & cont & pend & G & E & F). exists cont. split; [exact (wr_cont _ _ _ _ _ _ G)|].
    split; [now exists pend|]. intros [A | (h0 & A)].
    + apply closed_by_in in A. congruence.
    + rewrite (F _ _ A) in E by (cbn [flushes]; apply Nat.eqb_refl). now rewrite app_nil_r in E.
Qed.
Print Assumptions c88_written.

(* a file that nobody has open for output and that is not opened for output
   keeps its content, whatever is done to other files and ports *)
Theorem c88_untouched : forall c w name h l w', reachable c w -> no_writer w (FName name) -> never_opens_out name h ->
  run c w h = Ok (l, w') -> w_files w' (FName name) = w_files w (FName name) /\ no_writer w' (FName name).
Proof.
  intros c w name h l w' R N NO H. apply wf_reachable in R. assert (OP := opened_name _ _ NO). clear NO.
  revert w l R N H. induction h as [|o h IH]; intros w l R N H.
  - cbn [run] in H. injection H as _ H. now subst.
  - apply run_cons in H. destruct H as (a & l1 & w1 & A & B & _).
    assert (F := step_frame _ _ _ _ _ A). assert (O := OP o (or_introl eq_refl)).
    rewrite <- (frame_content _ _ _ _ _ _ F O N).
    apply (IH (fun o' I => OP o' (or_intror I)) w1 l1); auto.
    + exact (wf_step _ _ _ _ _ R A).
    + exact (frame_no_writer _ _ _ _ _ _ F O N).
Qed.
Print Assumptions c88_untouched.

(** ** Input files *)
(* Reading a file through a port answers exactly its bytes in order, then the
   end-of-file object forever, with peek-char and char-ready? agreeing, however
   stdio buffers and whatever is done with other ports meanwhile. *)
Theorem c88_read_back : forall c w name k w1 D h l w2,
  reachable c w -> no_writer w (FName (until_nul name)) -> on_disk w (until_nul name) D ->
  step c w (OpenIn (Some name)) = Ok (RPort k, w1) ->
  never_opens_out (until_nul name) h ->
  run c w1 h = Ok (l, w2) -> answers_in k h l = ideal_reader D k h.
Proof.
  intros c w name k w1 D h l w2 R N F O NO H. assert (W := wf_reachable _ _ R).
  assert (W1 := wf_step _ _ _ _ _ W O). unfold ideal_reader.
  refine (reader_run c k (rstate k (FName (until_nul name)) D) (fun o => opened o <> Some (FName (until_nul name))) _ h w1 D false l w2 W1 _ (opened_name _ _ NO) H).
  - intros. eapply rstate_step; eauto.
  - apply open_in_inv in O. destruct O as (-> & _ & ->). exists (length (w_handles w)).
    constructor; cbn [add_port add_handle tick w_ports w_handles w_files].
    + apply nth_app_last.
    + exists 0, [], false. split; [apply nth_app_last|]. split; auto. discriminate.
    + exact F.
    + intros j o A. cbn [add_port add_handle tick w_ports w_handles w_files] in A. apply nth_app_one in A.
      destruct A as [A | [_ A]]; [exact (N j o A) | discriminate A].
Qed.
Print Assumptions c88_read_back.

(* written, closed and read again: the reader gets exactly what was written *)
Theorem c88_round_trip : forall c w name k w1 h1 l1 w2 j w3 h2 l2 w4,
  reachable c w -> no_writer w (FName (until_nul name)) ->
  step c w (OpenOut (Some name)) = Ok (RPort k, w1) ->
  never_opens_out (until_nul name) h1 -> no_nul k h1 -> In (CloseOut (APort k)) h1 ->
  run c w1 h1 = Ok (l1, w2) ->
  step c w2 (OpenIn (Some name)) = Ok (RPort j, w3) ->
  never_opens_out (until_nul name) h2 ->
  run c w3 h2 = Ok (l2, w4) ->
  answers_in j h2 l2 = ideal_reader (sent k h1) j h2.
Proof.
  intros c w name k w1 h1 l1 w2 j w3 h2 l2 w4 R N O N1 NN C H1 O2 N2 H2.
  destruct (c88_written _ _ _ _ _ _ _ _ R N O N1 NN H1) as (s & D & _ & E). rewrite E in D by auto.
  assert (W := wf_reachable _ _ R). assert (J := open_writer _ _ _ _ _ W N O).
  assert (W1 := wf_step _ _ _ _ _ W O).
  assert (G := writer_run _ _ _ _ _ _ _ _ _ _ W1 J (opened_name _ _ N1) H1).
  rewrite (proj2 (closed_by_in k h1) C) in G.
  refine (c88_read_back c w2 name j w3 (sent k h1) h2 l2 w4 _ (wo_sole _ _ _ _ G) D O2 N2 H2).
  exact (reachable_run _ _ _ _ _ (reachable_step _ _ _ _ _ R O) H1).
Qed.
Print Assumptions c88_round_trip.

(* opening for output creates or empties the file; opening for input a file
   that is not there raises an error, as does an argument that is no string *)
Theorem c88_opening : forall c w name,
  (step c w (OpenOut None) = Ok (RRaise, tick w) /\ step c w (OpenIn None) = Ok (RRaise, tick w)) /\
  (w_files w (FName (until_nul name)) = None -> step c w (OpenIn (Some name)) = Ok (RRaise, tick w)) /\
  (c_may c (FName (until_nul name)) true = true ->
     exists w', step c w (OpenOut (Some name)) = Ok (RPort (length (w_ports w)), w') /\ on_disk w' (until_nul name) []) /\
  (forall D, on_disk w (until_nul name) D -> c_may c (FName (until_nul name)) false = true ->
     exists w', step c w (OpenIn (Some name)) = Ok (RPort (length (w_ports w)), w') /\ on_disk w' (until_nul name) D).
Proof.
  intros c w name. unfold step, on_disk. cbn [prim open_input_file open_output_file tick w_files w_ports w_handles].
  split; [split; reflexivity|]. split; [intros ->; reflexivity|]. split.
  - intros ->. eexists. split; [reflexivity|]. cbn [add_port add_handle set_file w_files]. now rewrite path_eqb_refl.
  - intros D F ->. rewrite F. eexists. split; [reflexivity|]. exact F.
Qed.
Print Assumptions c88_opening.

(** ** call-with-output-file and call-with-input-file *)
Lemma with_file_inv oo oc c w name body r o w' : with_file oo oc c w name body (Some r) = Ok (o, w') ->
  (exists a, o = Leaves /\ step c w (oo name) = Ok (a, w') /\ forall k, a <> RPort k) \/
  exists k w1 l w2 a, step c w (oo name) = Ok (RPort k, w1) /\ run c w1 (body k) = Ok (l, w2) /\
    step c w2 (oc (APort k)) = Ok (a, w') /\ o = Returns r.
Proof.
  unfold with_file. destruct (step c w (oo name)) as [[a w1]| | | |] eqn:A; cbn [bind]; try discriminate.
  destruct a; try (intros H; injection H as H1 H2; subst; left; eexists; split; [reflexivity|]; split; [reflexivity|]; discriminate).
  destruct (run c w1 (body k)) as [[l w2]| | | |] eqn:B; cbn [bind]; try discriminate.
  destruct (step c w2 (oc (APort k))) as [[a w3]| | | |] eqn:C; cbn [bind]; try discriminate.
  intros H. injection H as H1 H2. subst. right. exists k, w1, l, w2, a. auto.
Qed.
Lemma run_snoc c : forall h w o l w1 a w2, run c w h = Ok (l, w1) -> step c w1 o = Ok (a, w2) -> run c w (h ++ [o]) = Ok (l ++ [a], w2).
Proof.
  induction h as [|x h IH]; intros w o l w1 a w2 A B; cbn [run app] in *.
  - injection A as A1 A2. subst. cbn [run]. now rewrite B.
  - destruct (step c w x) as [[b w0]| | | |]; cbn [bind] in *; try discriminate A.
    destruct (run c w0 h) as [[l0 w0']| | | |] eqn:E; cbn [bind] in *; try discriminate A.
    injection A as A1 A2. subst. rewrite (IH _ _ _ _ _ _ E B). reflexivity.
Qed.
(* when the procedure returns, call-with-output-file answers its result and the
   file holds exactly what the procedure wrote to the port *)
Theorem c88_call_with_output_file : forall c w name body r w',
  reachable c w -> no_writer w (FName (until_nul name)) -> c_may c (FName (until_nul name)) true = true ->
  let k := length (w_ports w) in
  never_opens_out (until_nul name) (body k) -> no_nul k (body k) ->
  forall o, with_output_file c w (Some name) body (Some r) = Ok (o, w') ->
  o = Returns r /\ on_disk w' (until_nul name) (sent k (body k)).
Proof.
  intros c w name body r w' R N M k NO NN o H. apply with_file_inv in H.
  destruct H as [(a & _ & A & B) | (k' & w1 & l & w2 & a & A & B & C & D)].
  - exfalso. unfold step in A. cbn [prim open_output_file tick w_ports w_handles] in A. rewrite M in A.
    injection A as A _. exact (B _ (eq_sym A)).
  - split; auto. assert (k' = k) by apply (open_out_inv _ _ _ _ _ A). subst k'.
    assert (H := run_snoc _ _ _ _ _ _ _ _ B C).
    assert (V : view_out k (body k ++ [CloseOut (APort k)]) = view_out k (body k) ++ [OpCloseOut]).
    { clear. induction (body k) as [|x h IH]; cbn [app view_out on_out]; [now rewrite Nat.eqb_refl|].
      destruct (on_out k x); cbn [app]; now rewrite IH. }
    destruct (c88_written c w name k w1 (body k ++ [CloseOut (APort k)]) (l ++ [a]) w' R N A) as (s & D1 & _ & D2); auto.
    + intros s I. apply in_app_or in I. destruct I as [I | [I | []]]; [exact (NO s I) | discriminate I].
    + unfold no_nul. rewrite V. intros t I. apply in_app_or in I. destruct I as [I | [I | []]]; [exact (NN t I) | discriminate I].
    + rewrite D2 in D1 by (left; apply in_or_app; right; now left).
      assert (E : forall v, written (v ++ [OpCloseOut]) = written v).
      { clear. induction v as [|x v IH]; auto. destruct x; cbn [app written]; now rewrite ?IH. }
      unfold sent in D1. rewrite V, E in D1. exact D1.
Qed.
Print Assumptions c88_call_with_output_file.
(* call-with-input-file closes the port after a normal return *)
Theorem c88_call_with_input_file : forall c w name body r w' D,
  reachable c w -> on_disk w (until_nul name) D -> c_may c (FName (until_nul name)) false = true ->
  let k := length (w_ports w) in
  forall o, with_input_file c w (Some name) body (Some r) = Ok (o, w') ->
  o = Returns r /\ step c w' (ReadChar (Some (APort k))) = Ok (REof, tick w').
Proof.
  intros c w name body r w' D R F M k o H. apply with_file_inv in H.
  destruct H as [(a & _ & A & B) | (k' & w1 & l & w2 & a & A & B & C & E)].
  - exfalso. unfold step in A. unfold on_disk in F. cbn [prim open_input_file tick w_ports w_handles w_files] in A. rewrite F, M in A.
    injection A as A _. exact (B _ (eq_sym A)).
  - split; auto. assert (W := wf_reachable _ _ R). assert (W1 := wf_step _ _ _ _ _ W A).
    assert (KK : k' = k) by apply (open_in_inv _ _ _ _ _ A). subst k'.
    assert (P1 : exists p, nth_error (w_ports w1) k = Some p /\ exists h, pt_kind p = KFileIn h).
    { destruct (open_in_inv _ _ _ _ _ A) as (_ & _ & ->). cbn [add_port add_handle tick w_ports]. eexists. split; [apply nth_app_last|].
      cbn [pt_kind]. eauto. }
    assert (STEP : forall w0 o0 a0 w0', wf w0 -> step c w0 o0 = Ok (a0, w0') ->
       (exists p, nth_error (w_ports w0) k = Some p /\ exists h, pt_kind p = KFileIn h) ->
        exists p, nth_error (w_ports w0') k = Some p /\ exists h, pt_kind p = KFileIn h).
    { intros w0 o0 a0 w0' _ S0 (p & P & h & K). assert (FR := step_frame _ _ _ _ _ S0).
      destruct (target_dec o0 k) as [T | T].
      - assert (L : k < length (w_ports w0')) by (pose proof (f_plen _ _ _ _ _ FR); pose proof (nth_lt _ _ _ P); lia).
        destruct (nth_error (w_ports w0') k) as [p'|] eqn:P'; [|apply nth_error_None in P'; lia].
        destruct (f_self _ _ _ _ _ FR _ _ T P') as (p0 & Q & LA). exists p'. split; auto.
        assert (p0 = p) by congruence. subst p0. destruct LA as (_ & _ & _ & LA). rewrite K in LA.
        destruct (pt_kind p'); try contradiction. eauto.
      - exists p. split; eauto. exact (f_keep _ _ _ _ _ FR _ _ P T). }
    assert (RUN : forall h0 w0 l0 w0', wf w0 -> run c w0 h0 = Ok (l0, w0') ->
       (exists p, nth_error (w_ports w0) k = Some p /\ exists h, pt_kind p = KFileIn h) ->
        exists p, nth_error (w_ports w0') k = Some p /\ exists h, pt_kind p = KFileIn h).
    { induction h0 as [|o0 h0 IH]; intros w0 l0 w0' V Q P.
      - cbn [run] in Q. injection Q as _ Q. now subst.
      - apply run_cons in Q. destruct Q as (a0 & l2 & w3 & Q1 & Q2 & _). eauto using wf_step. }
    assert (W2 := wf_run _ _ _ _ _ W1 B).
    destruct (RUN _ _ _ _ W1 B P1) as (p & P & h & K).
    assert (GD := wf_good _ W2 _ _ P). unfold good in GD. rewrite K in GD.
    assert (P' : nth_error (w_ports w') k = Some (mkPort (KFileIn None) true true)).
    { unfold step in C. cbn [prim] in C. unfold close_in in C. cbn [get_port tick w_ports] in C. rewrite P in C.
      destruct p as [kd inp cl]. cbn [pt_kind pt_input pt_closed] in *. destruct GD as (-> & ->). subst kd.
      unfold close_port in C. cbn [pt_kind pt_input pt_closed] in C. destruct h as [i|].
      - destruct (fclose (tick w2) i) as [w3| | | |] eqn:FC; cbn [bind] in C; try discriminate C. injection C as _ C. subst w'.
        cbn [set_port w_ports]. apply set_nth_same. rewrite (fclose_ports _ _ _ FC). cbn [tick w_ports]. exact (nth_lt _ _ _ P).
      - injection C as _ C. subst w'. exact P. }
    unfold step. cbn [prim]. unfold prim_read. cbn [opt_arg get_port tick w_ports]. rewrite P'. cbn [pt_kind pt_input].
    unfold read_from. cbn [pt_closed]. reflexivity.
Qed.
Print Assumptions c88_call_with_input_file.

(** ** The hypotheses are met *)
(* stdio that never moves anything to the file by itself and reads one byte at a
   time; every file may be opened; soft-port procedures answer #f *)
Definition lazy : cfg := mkCfg (fun _ _ _ => 0) (fun _ _ => 0) (fun _ _ => true) (fun _ _ _ => SaFalse).
(* stdio that moves everything at once and reads far ahead *)
Definition eager : cfg := mkCfg (fun _ _ s => length s) (fun _ _ => 4096) (fun _ _ => true) (fun _ _ _ => SaFalse).
Definition home : world := boot (fun _ => None) [].
Example c88_home_free name : reachable lazy home /\ no_writer home (FName name).
Proof.
  split; [now exists (fun _ => None), [], [], []|].
  intros i o H. unfold home, boot in H. cbn [w_handles] in H.
  destruct i as [|[|[|i]]]; cbn [nth_error] in H; try (injection H as <-; discriminate); try discriminate H.
  destruct i; discriminate H.
Qed.
Definition demo : list op :=
  [OpenOut (Some (bs "f")); Print (bs "hi ") (Some (APort 3)); OpenOut (Some (bs "g")); Newline (Some (APort 4));
   Print (bs "screen") None; WriteChar (Some 33%Z) (Some (APort 3)); Newline (Some (APort 3)); CloseOut (APort 3); OpenIn (Some (bs "f"));
   PeekChar (Some (APort 5)); ReadChar (Some (APort 5)); CharReady (Some (APort 5)); ReadChar (Some (APort 5)); ReadChar (Some (APort 5));
   ReadChar (Some (APort 5)); ReadChar (Some (APort 5)); CharReady (Some (APort 5)); ReadChar (Some (APort 5)); CloseIn (APort 5); ReadChar (Some (APort 5))].
Example c88_demo : forall c, c = lazy \/ c = eager -> exists w, run c home demo =
  Ok ([RPort 3; RNone; RPort 4; RNone; RNone; RNone; RNone; RNone; RPort 5;
       RChar' 104; RChar' 104; RBool true; RChar' 105; RChar' 32; RChar' 33; RChar' 10; RBool false; REof; RNone; REof], w) /\
  on_disk w (bs "f") (bs "hi !" ++ [10%Z]).
Proof. intros c [-> | ->]; eexists; split; vm_compute; reflexivity. Qed.
Example c88_untouched_demo : never_opens_out (bs "h") demo.
Proof.
  intros s I E. repeat (destruct I as [I | I]; [discriminate I || (injection I as <-; vm_compute in E; discriminate E)|]). destruct I.
Qed.
Example c88_with_demo : exists w, with_output_file lazy home (Some (bs "f")) (fun k => [Print (bs "x") (Some (APort k))]) (Some RNone) =
  Ok (Returns RNone, w) /\ on_disk w (bs "f") (bs "x").
Proof. eexists. split; vm_compute; reflexivity. Qed.

(** ** What does not hold *)
(* When the procedure given to call-with-output-file exits through an error or
   an escape, the port is not closed: the bytes written are not in the file, and
   nothing but closing or flushing that port ever puts them there. *)
Theorem c117_escape_refuted :
  exists w, with_output_file lazy home (Some (bs "f")) (fun k => [Print (bs "x") (Some (APort k))]) None = Ok (Leaves, w) /\
    on_disk w (bs "f") [] /\
    forall h l w', never_opens_out (bs "f") h -> (forall o, In o h -> target o <> Some 3) -> run lazy w h = Ok (l, w') ->
      on_disk w' (bs "f") [].
Proof.
  set (w := match with_output_file lazy home (Some (bs "f")) (fun k => [Print (bs "x") (Some (APort k))]) None with Ok (_, w) => w | _ => home end).
  exists w. split; [vm_compute; reflexivity|]. split; [vm_compute; reflexivity|].
  intros h l w' NO NT H.
  assert (R : exists l0, run lazy home [OpenOut (Some (bs "f")); Print (bs "x") (Some (APort 3))] = Ok (l0, w)) by (eexists; vm_compute; reflexivity).
  destruct R as (l0 & R).
  assert (W : wf w) by exact (wf_run _ _ _ _ _ (wf_boot _ _) R).
  assert (J : writer 3 3 (FName (bs "f")) w [] (bs "x")).
  { constructor; [vm_compute; reflexivity| vm_compute; reflexivity | vm_compute; reflexivity |].
    intros j o A B. destruct j as [|[|[|[|j]]]]; [| | |reflexivity|].
    - vm_compute in A. discriminate A.
    - vm_compute in A. injection A as <-. discriminate B.
    - vm_compute in A. injection A as <-. discriminate B.
    - vm_compute in A. destruct j; discriminate A. }
  clearbody w. clear R. assert (OP := opened_name _ _ NO). clear NO. unfold on_disk.
  revert w l W J H. induction h as [|o h IH]; intros w l W J H.
  - cbn [run] in H. injection H as _ <-. exact (wr_cont _ _ _ _ _ _ J).
  - apply run_cons in H. destruct H as (a & l1 & w1 & A & B & _).
    refine (IH (fun o' I => NT o' (or_intror I)) (fun o' I => OP o' (or_intror I)) w1 l1 (wf_step _ _ _ _ _ W A) _ B).
    assert (F := step_frame _ _ _ _ _ A).
    assert (T := NT o (or_introl eq_refl)).
    refine (frame_writer _ _ _ _ _ _ _ _ _ _ W F (OP o (or_introl eq_refl)) T _ J).
    intros G. destruct (handle_of_target _ _ _ _ _ W (wr_port _ _ _ _ _ _ J) eq_refl G) as [Q | [_ Q]]; [auto | lia].
Qed.
Print Assumptions c117_escape_refuted.
(* Two output ports on one file: closing both leaves neither text *)
Theorem c117_two_writers_refuted :
  exists h w l, run lazy home h = Ok (l, w) /\ In (CloseOut (APort 3)) h /\ In (CloseOut (APort 4)) h /\
    sent 3 h = bs "abcd" /\ sent 4 h = bs "xy" /\ on_disk w (bs "f") (bs "xycd").
Proof.
  exists [OpenOut (Some (bs "f")); OpenOut (Some (bs "f")); Print (bs "abcd") (Some (APort 3)); Print (bs "xy") (Some (APort 4));
     CloseOut (APort 3); CloseOut (APort 4)].
  eexists. eexists. split; [vm_compute; reflexivity|]. split; [do 4 right; now left|]. split; [do 5 right; now left|].
  repeat split; vm_compute; reflexivity.
Qed.
Print Assumptions c117_two_writers_refuted.
(* What was written is not in the file before the port is closed or flushed:
   reading it back at once may find it empty *)
Theorem c117_unflushed_refuted :
  exists h w l, run lazy home h = Ok (l, w) /\ l = [RPort 3; RNone; RPort 4; REof] /\ sent 3 h = bs "abcd" /\
    h = [OpenOut (Some (bs "f")); Print (bs "abcd") (Some (APort 3)); OpenIn (Some (bs "f")); ReadChar (Some (APort 4))].
Proof. do 3 eexists. split; [|split; [|split; [|reflexivity]]]; vm_compute; reflexivity. Qed.
Print Assumptions c117_unflushed_refuted.
