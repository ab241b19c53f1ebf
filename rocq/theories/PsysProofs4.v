(** The port system never runs into undefined behaviour as long as the port on
    stdout is not closed and no more than 2^29 bytes are printed. *)
From Coq Require Import Lia.
From Verif Require Import Base NumModel StringModel ParseModel PrintModel PortModel PortSpec PortProofs PsysModel PsysSpec PsysProofs PsysProofs2 PsysProofs3.
Local Open Scope list_scope.
Local Open Scope nat_scope.

Definition strlim : Z := (2 ^ 29)%Z.
Definition pmatch (w : world) (tot : Z) (p : port) : Prop :=
  match pt_kind p with
  | KFileIn (Some i) => exists h, nth_error (w_handles w) i = Some (HIn h)
  | KFileOut (Some i) => exists h, nth_error (w_handles w) i = Some (HOut h)
  | KStrIn q => exists data n, (Z.of_nat (length data) <= int_max)%Z /\ ip_ok data n (pt_closed p) q
  | KStrOut q => exists out, op_ok out (pt_closed p) q /\ (Z.of_nat (length out) <= tot)%Z /\ (op_cap q <= 2 ^ 30)%Z
  | _ => True
  end.
Definition fits (o : op) : Prop :=
  match o with OpenInStr (Some s) => (Z.of_nat (length s) <= int_max)%Z | _ => True end.
Lemma osize_nonneg o : (0 <= osize o)%Z.
Proof. destruct o; cbn; lia. Qed.

Record safe (w : world) (tot : Z) : Prop := {
  sf_wf : wf w;
  sf_std : exists p, nth_error (w_ports w) 2 = Some p /\ file_of p = Some 1;
  sf_match : forall j p, nth_error (w_ports w) j = Some p -> pmatch w tot p;
  sf_tot : (0 <= tot)%Z }.

Lemma fput_total c w i h s : nth_error (w_handles w) i = Some (HOut h) -> exists w', fput c w i s = Ok w' /\
  (exists h', nth_error (w_handles w') i = Some (HOut h')) /\ w_ports w' = w_ports w.
Proof.
  intros N. unfold fput. rewrite N. cbv zeta. eexists. split; [reflexivity|]. split; [|reflexivity].
  eexists. cbn [push set_handle w_handles set_file]. apply set_nth_same. eapply nth_lt; eauto.
Qed.
Lemma fflush_total w i h : nth_error (w_handles w) i = Some (HOut h) -> exists w', fflush w i = Ok w' /\
  (exists h', nth_error (w_handles w') i = Some (HOut h')) /\ w_ports w' = w_ports w.
Proof.
  intros N. unfold fflush. rewrite N. cbv zeta. eexists. split; [reflexivity|]. split; [|reflexivity].
  eexists. cbn [push set_handle w_handles set_file]. apply set_nth_same. eapply nth_lt; eauto.
Qed.
Lemma fgetc_total c w i h : nth_error (w_handles w) i = Some (HIn h) -> exists o w', fgetc c w i = Ok (o, w') /\
  (exists h', nth_error (w_handles w') i = Some (HIn h')) /\ w_ports w' = w_ports w.
Proof.
  intros N. unfold fgetc. rewrite N. cbv zeta. destruct (hi_buf h) as [|b r].
  - destruct (hi_eof h); [eauto 8|]. destruct (firstn _ _) as [|b r].
    + eexists _, _. split; [reflexivity|]. split; [|reflexivity]. eexists. cbn. apply set_nth_same. eapply nth_lt; eauto.
    + eexists _, _. split; [reflexivity|]. split; [|reflexivity]. eexists. cbn. apply set_nth_same. eapply nth_lt; eauto.
  - eexists _, _. split; [reflexivity|]. split; [|reflexivity]. eexists. cbn. apply set_nth_same. eapply nth_lt; eauto.
Qed.
Lemma ungetc_total w i h b : nth_error (w_handles w) i = Some (HIn h) -> exists w', ungetc w i b = Ok w' /\
  (exists h', nth_error (w_handles w') i = Some (HIn h')) /\ w_ports w' = w_ports w.
Proof.
  intros N. unfold ungetc. rewrite N. eexists. split; [reflexivity|]. split; [|reflexivity]. eexists. cbn. apply set_nth_same. eapply nth_lt; eauto.
Qed.
Lemma fclose_total w i h : nth_error (w_handles w) i = Some h -> h <> HFree -> exists w', fclose w i = Ok w' /\ w_ports w' = w_ports w.
Proof. intros N F. unfold fclose. rewrite N. destruct h; try contradiction; eauto. Qed.

Lemma op_ok_char out q b tot : op_ok out false q -> (Z.of_nat (length out) <= tot)%Z -> (op_cap q <= 2 ^ 30)%Z -> (tot + 2 < strlim)%Z ->
  exists q', write_char_port q b = Ok q' /\ op_ok (out ++ [b]) false q' /\ (op_cap q' <= 2 ^ 30)%Z.
Proof.
  intros A B C D. unfold strlim in D. destruct (write_char_ok out q b A) as (q' & E & F & G); [lia|lia|].
  exists q'. split; auto. split; auto. destruct G as [G|[G G']]; lia.
Qed.
Lemma until_nul_no s : ~ In 0%Z (until_nul s).
Proof.
  induction s as [|c s IH]; cbn [until_nul]; auto. destruct (Z.eqb_spec c 0); [intros []|]. intros [E|E]; auto.
Qed.
Lemma until_nul_len s : length (until_nul s) <= length s.
Proof. induction s as [|c s IH]; cbn [until_nul]; auto. destruct (c =? 0)%Z; cbn [length]; lia. Qed.
Lemma until_nul_idem s : until_nul (until_nul s) = until_nul s.
Proof. apply until_nul_id, until_nul_no. Qed.
Lemma op_ok_text out q t tot : op_ok out false q -> (Z.of_nat (length out) <= tot)%Z -> (op_cap q <= 2 ^ 30)%Z ->
  (tot + Z.of_nat (length t) + 2 < strlim)%Z ->
  exists q', write_text_port q t = Ok q' /\ op_ok (out ++ until_nul t) false q' /\ (op_cap q' <= 2 ^ 30)%Z.
Proof.
  intros A B C D. unfold strlim in D. pose proof (until_nul_len t). destruct (write_text_ok out q (until_nul t) A (until_nul_no t)) as (q' & E & F & G); [lia|].
  exists q'. split; [|split; auto].
  - unfold write_text_port in *. now rewrite until_nul_idem in E.
  - destruct G as [G|G]; lia.
Qed.

Lemma call_slot_total c w s args : exists o w', call_slot c w s args = (o, w') /\ w_ports w' = w_ports w.
Proof. destruct s; cbn; eauto. Qed.

(* an operation on port [k] *)
Lemma target_ok c w k p o tot : nth_error (w_ports w) k = Some p -> good p -> pmatch w tot p -> target o = Some k ->
  (tot + osize o + 2 < strlim)%Z -> (0 <= tot)%Z ->
  exists a w' p', prim c w o = Ok (a, w') /\ nth_error (w_ports w') k = Some p' /\ pmatch w' (tot + osize o) p' /\
    (o <> CloseOut (APort k) -> pt_input p = false -> file_of p' = file_of p).
Proof.
  intros P GD PM T B T0. assert (PL := nth_lt _ _ _ P). pose proof (osize_nonneg o) as OS.
  assert (PMW : pmatch w (tot + osize o) p).
  { unfold pmatch in *. destruct (pt_kind p) as [[]|[]|q|q|]; auto. destruct PM as (out & A & C & D). exists out. repeat split; auto; try apply A. lia. }
  assert (G : get_port w (APort k) = Some (k, p)) by (cbn [get_port]; now rewrite P).
  assert (SAME : forall a : ans, exists a' w' p', Ok (a, w) = Ok (a', w') /\ nth_error (w_ports w') k = Some p' /\ pmatch w' (tot + osize o) p' /\
    (o <> CloseOut (APort k) -> pt_input p = false -> file_of p' = file_of p)) by (intros a; exists a, w, p; auto).
  assert (CALL : forall s args (f : option sans * world -> res (ans * world)), (forall x y, exists a, f (x, y) = Ok (a, y)) -> (exists pv m, pt_kind p = KSoft pv m) ->
    exists a' w' p', f (call_slot c w s args) = Ok (a', w') /\ nth_error (w_ports w') k = Some p' /\ pmatch w' (tot + osize o) p' /\
    (o <> CloseOut (APort k) -> pt_input p = false -> file_of p' = file_of p)).
  { intros s args f FX (pv & m & KS). destruct (call_slot_total c w s args) as (x & y & E & Y). rewrite E. destruct (FX x y) as (a & FE).
    exists a, y, p. split; auto. split; [congruence|]. split; auto. unfold pmatch. rewrite KS. auto. }
  destruct o; cbn [target] in T; try discriminate T;
    repeat match goal with
    | a : option arg |- _ => destruct a as [[]|]; try discriminate T
    | a : arg |- _ => destruct a; try discriminate T
    end; injection T as T; subst k0; cbn [prim].
  1, 2: unfold close_in, close_out; rewrite G; destruct (pt_input p) eqn:IN; try apply SAME; unfold close_port; destruct (pt_closed p) eqn:CL; try apply SAME;
    unfold pmatch in PM, PMW; unfold good in GD; destruct (pt_kind p) as [[i|]|[i|]|q|q|pv m] eqn:K;
    try (destruct GD; congruence).
  1, 4: destruct PM as (h & PM); destruct (fclose_total w i _ PM) as (w' & FC & FP); [discriminate|]; rewrite FC; cbn [bind];
    eexists _, _, _; split; [reflexivity|]; split; [cbn [set_port w_ports]; apply set_nth_same; now rewrite FP|]; split; [exact Logic.I|]; intros; congruence.
  1, 3: eexists _, _, _; split; [reflexivity|]; split; [cbn [set_port w_ports]; now apply set_nth_same|]; split; [|intros; congruence]; cbn [pmatch pt_kind pt_closed].
  - destruct PMW as (data & n & A & C & D & E & F). exists data, n. split; auto. unfold ip_ok. cbn. auto.
  - destruct PMW as (out & A & C & D). exists out. split; [|split; [lia|auto]]. destruct A as (A1 & A2 & A3 & A4 & A5 & A6). unfold op_ok. cbn. auto 10.
  - destruct (call_slot_total c w (slot_at pv 4) []) as (x & y & E & Y). rewrite E.
    assert (Z1 : nth_error (w_ports y) k = Some p) by congruence.
    destruct x as [[]|]; eexists _, _, _; (split; [reflexivity|]; split; [first [exact Z1|cbn [set_port w_ports]; apply set_nth_same; now rewrite Y]|]; split; [unfold pmatch; cbn; rewrite ?K; exact Logic.I|intros; congruence]).
  - destruct (call_slot_total c w (slot_at pv 4) []) as (x & y & E & Y). rewrite E.
    assert (Z1 : nth_error (w_ports y) k = Some p) by congruence.
    destruct x as [[]|]; eexists _, _, _; (split; [reflexivity|]; split; [first [exact Z1|cbn [set_port w_ports]; apply set_nth_same; now rewrite Y]|]; split; [unfold pmatch; cbn; rewrite ?K; exact Logic.I|intros; congruence]).
  - unfold get_string. rewrite G. destruct (pt_kind p); apply SAME.
  - unfold prim_read. cbn [opt_arg]. rewrite G. cbv zeta.
    destruct (match pt_kind p with KSoft _ m => soft_has 114 m | _ => pt_input p end); [|apply SAME].
    unfold read_from. destruct (pt_closed p) eqn:CL; [apply SAME|]. unfold pmatch in PM. destruct (pt_kind p) as [[i|]|[i|]|q|q|pv m] eqn:K; try apply SAME.
    + destruct PM as (h & PM). destruct (fgetc_total c w i _ PM) as (x & w' & E & (h' & H') & Y). rewrite E. cbn [bind].
      eexists _, w', p. split; [reflexivity|]. split; [congruence|]. split; auto. unfold pmatch. rewrite K. eauto.
    + destruct PM as (data & n & A & C). rewrite CL in C. destruct (istep_ok data n false q OpRead A C) as (q' & E & C'). cbn [iport_step] in E.
      destruct (read_char_port q) as [[x q2]| | | |]; cbn [bind] in E |- *; try discriminate E. inversion E; subst.
      eexists _, _, _. split; [reflexivity|]. split; [cbn [set_port w_ports]; now apply set_nth_same|].
      split; [exists data, (S n); cbn [pt_closed pt_kind] in *; split; auto|intros _ _; unfold file_of; now rewrite K].
    + destruct (pt_input p); [|apply SAME]. apply (CALL (slot_at pv 3) [] (fun z => match z with (Some (SaChar b), w') => Ok (RChar' b, w') | (Some SaRaise, w') => Ok (RRaise, w') | (_, w') => Ok (REof, w') end)); [|eauto].
      intros [[]|] y; eauto.
  - unfold prim_peek. cbn [opt_arg]. rewrite G. destruct (pt_input p); [|apply SAME].
    unfold peek_from. destruct (pt_closed p) eqn:CL; [apply SAME|]. unfold pmatch in PM. destruct (pt_kind p) as [[i|]|[i|]|q|q|pv m] eqn:K; try apply SAME.
    + destruct PM as (h & PM). destruct (fgetc_total c w i _ PM) as (x & w' & E & (h' & H') & Y). rewrite E. cbn [bind]. destruct x as [b|].
      * destruct (ungetc_total w' i _ b H') as (w2 & E2 & (h2 & H2) & Y2). rewrite E2. cbn [bind].
        eexists _, w2, p. split; [reflexivity|]. split; [congruence|]. split; auto. unfold pmatch. rewrite K. eauto.
      * cbn [bind]. eexists _, w', p. split; [reflexivity|]. split; [congruence|]. split; auto. unfold pmatch. rewrite K. eauto.
    + destruct PM as (data & n & A & C). rewrite CL in C. destruct (istep_ok data n false q OpPeek A C) as (q' & E & C'). cbn [iport_step] in E.
      destruct (peek_char_port q) as [x| | | |]; cbn [bind] in E |- *; try discriminate E. apply SAME.
  - unfold prim_ready. cbn [opt_arg]. rewrite G. destruct (pt_input p); [|apply SAME]. destruct (pt_closed p) eqn:CL; [apply SAME|].
    unfold peek_from. rewrite CL. unfold pmatch in PM. destruct (pt_kind p) as [[i|]|[i|]|q|q|pv m] eqn:K; try apply SAME.
    destruct PM as (h & PM). destruct (fgetc_total c w i _ PM) as (x & w' & E & (h' & H') & Y). rewrite E. cbn [bind]. destruct x as [b|].
    + destruct (ungetc_total w' i _ b H') as (w2 & E2 & (h2 & H2) & Y2). rewrite E2. cbn [bind].
      eexists _, w2, p. split; [reflexivity|]. split; [congruence|]. split; auto. unfold pmatch. rewrite K. eauto.
    + cbn [bind]. eexists _, w', p. split; [reflexivity|]. split; [congruence|]. split; auto. unfold pmatch. rewrite K. eauto.
  - unfold prim_write_char. destruct ch as [b|]; [|apply SAME]. cbn [opt_arg]. rewrite G. cbv zeta.
    destruct (match pt_kind p with KSoft _ m => soft_has 119 m | _ => negb (pt_input p) end); [|apply SAME].
    unfold write_char_to. destruct (pt_closed p) eqn:CL; [apply SAME|]. unfold pmatch in PM. destruct (pt_kind p) as [[i|]|[i|]|q|q|pv m] eqn:K; try apply SAME.
    + destruct PM as (h & PM). destruct (fput_total c w i _ [b] PM) as (w' & E & (h' & H') & Y). rewrite E. cbn [bind].
      eexists _, w', p. split; [reflexivity|]. split; [congruence|]. split; auto. unfold pmatch. rewrite K. eauto.
    + destruct PM as (out & A & C & D). cbn [osize] in *. rewrite CL in A. destruct (op_ok_char out q b tot A C D ltac:(lia)) as (q' & E & F & H). rewrite E. cbn [bind].
      eexists _, _, _. split; [reflexivity|]. split; [cbn [set_port w_ports]; now apply set_nth_same|].
      split; [|intros _ _; unfold file_of; now rewrite K]. exists (out ++ [b]). cbn [pt_closed]. split; auto. rewrite app_length. cbn [length]. split; auto. lia.
    + destruct (pt_input p); [apply SAME|]. apply (CALL (slot_at pv 0) [b] (fun z => match z with (Some SaRaise, w') => Ok (RRaise, w') | (_, w') => Ok (RNone, w') end)); [|eauto].
      intros [[]|] y; eauto.
  - unfold prim_print. cbn [opt_arg]. rewrite G. destruct (pt_input p); [apply SAME|].
    unfold print_to. destruct (pt_closed p) eqn:CL; [apply SAME|]. unfold pmatch in PM. destruct (pt_kind p) as [[i|]|[i|]|q|q|pv m] eqn:K; try apply SAME.
    + destruct PM as (h & PM). destruct (fput_total c w i _ (until_nul text) PM) as (w' & E & (h' & H') & Y). rewrite E. cbn [bind].
      eexists _, w', p. split; [reflexivity|]. split; [congruence|]. split; auto. unfold pmatch. rewrite K. eauto.
    + destruct PM as (out & A & C & D). cbn [osize oport_step] in *. rewrite CL in A. destruct (op_ok_text out q text tot A C D ltac:(lia)) as (q' & E & F & H). rewrite E. cbn [bind].
      eexists _, _, _. split; [reflexivity|]. split; [cbn [set_port w_ports]; now apply set_nth_same|].
      split; [|intros _ _; unfold file_of; now rewrite K]. eexists. cbn [pt_closed]. split; [exact F|]. rewrite app_length. pose proof (until_nul_len text). split; auto. lia.
  - unfold prim_print. cbn [opt_arg]. rewrite G. destruct (pt_input p); [apply SAME|].
    unfold print_to. destruct (pt_closed p) eqn:CL; [apply SAME|]. unfold pmatch in PM. destruct (pt_kind p) as [[i|]|[i|]|q|q|pv m] eqn:K; try apply SAME.
    + destruct PM as (h & PM). destruct (fput_total c w i _ [10%Z] PM) as (w' & E & (h' & H') & Y). rewrite E. cbn [bind].
      eexists _, w', p. split; [reflexivity|]. split; [congruence|]. split; auto. unfold pmatch. rewrite K. eauto.
    + destruct PM as (out & A & C & D). cbn [osize oport_step] in *. rewrite CL in A. destruct (op_ok_char out q 10%Z tot A C D ltac:(lia)) as (q' & E & F & H). rewrite E. cbn [bind].
      eexists _, _, _. split; [reflexivity|]. split; [cbn [set_port w_ports]; now apply set_nth_same|].
      split; [|intros _ _; unfold file_of; now rewrite K]. eexists. cbn [pt_closed]. split; [exact F|]. rewrite app_length. cbn [length]. split; auto. lia.
  - unfold prim_force. cbn [opt_arg]. rewrite G. destruct (pt_input p) eqn:IN; [apply SAME|].
    unfold flush_port. destruct (pt_closed p) eqn:CL; [apply SAME|]. unfold pmatch in PM. destruct (pt_kind p) as [[i|]|[i|]|q|q|pv m] eqn:K; try apply SAME.
    + destruct PM as (h & PM). destruct (fflush_total w i _ PM) as (w' & E & (h' & H') & Y). rewrite E. cbn [bind].
      eexists _, w', p. split; [reflexivity|]. split; [congruence|]. split; auto. unfold pmatch. rewrite K. eauto.
    + rewrite IN. apply (CALL (slot_at pv 2) [] (fun z => match z with (Some SaRaise, w') => Ok (RRaise, w') | (_, w') => Ok (RNone, w') end)); [|eauto].
      intros [[]|] y; eauto.
Qed.

Lemma pmatch_mono w t1 t2 p : pmatch w t1 p -> (t1 <= t2)%Z -> pmatch w t2 p.
Proof.
  unfold pmatch. intros A L. destruct (pt_kind p) as [[]|[]|q|q|]; auto. destruct A as (out & A & B & C). exists out. repeat split; auto; try apply A. lia.
Qed.
Lemma pmatch_handles w w' t p : pmatch w t p -> (forall i, file_of p = Some i -> nth_error (w_handles w') i = nth_error (w_handles w) i) -> pmatch w' t p.
Proof.
  unfold pmatch, file_of. intros A B. destruct (pt_kind p) as [[]|[]|q|q|]; auto; now rewrite B by reflexivity.
Qed.
Lemma get_port_none w k : nth_error (w_ports w) k = None -> get_port w (APort k) = None.
Proof. intros E. cbn. now rewrite E. Qed.

(* what remains when no port is given *)
Lemma no_port_ok c w o : target o = None -> to_stdout o = false ->
  exists a w', prim c w o = Ok (a, w') /\ (w_handles w' = w_handles w \/ exists h, w_handles w' = w_handles w ++ [h]) /\
   (forall p', nth_error (w_ports w') (length (w_ports w)) = Some p' -> fits o -> pmatch w' 0 p').
Proof.
  intros T S.
  assert (LEN : nth_error (w_ports w) (length (w_ports w)) = None) by now apply nth_error_None.
  assert (SAME : forall a : ans, exists a' w', Ok (a, w) = Ok (a', w') /\ (w_handles w' = w_handles w \/ exists h, w_handles w' = w_handles w ++ [h]) /\
   (forall p', nth_error (w_ports w') (length (w_ports w)) = Some p' -> fits o -> pmatch w' 0 p')).
  { intros a. exists a, w. split; auto. split; auto. intros p'. rewrite LEN. discriminate. }
  destruct o; cbn [target to_stdout] in T, S;
    repeat match goal with
    | a : option arg |- _ => destruct a as [[]|]; try discriminate T; try discriminate S
    | a : arg |- _ => destruct a; try discriminate T; try discriminate S
    end; cbn [prim];
    try (match goal with |- context [get_port w (APort ?k)] => cbn [get_port]; destruct (nth_error (w_ports w) k) as [p|] end);
    try (repeat match goal with |- context [if ?x then _ else _] => destruct x end; apply SAME).
  - unfold open_input_file. destruct name as [s|]; [|apply SAME]. cbv zeta. destruct (w_files w _); [|apply SAME]. destruct (c_may c _ false); [|apply SAME].
    eexists _, _. split; [reflexivity|]. split; [right; eexists; reflexivity|]. intros p'. cbn [add_port add_handle w_ports]. rewrite nth_app_last. intros [= <-] _.
    unfold pmatch. cbn. rewrite nth_app_last. eauto.
  - unfold open_output_file. destruct name as [s|]; [|apply SAME]. cbv zeta. destruct (c_may c _ true); [|apply SAME].
    eexists _, _. split; [reflexivity|]. split; [right; eexists; reflexivity|]. intros p'. cbn [add_port add_handle set_file w_ports]. rewrite nth_app_last. intros [= <-] _.
    unfold pmatch. cbn. rewrite nth_app_last. eauto.
  - destruct s as [s|]; [|apply SAME]. cbn [open_in_string]. eexists _, _. split; [reflexivity|]. split; [left; reflexivity|].
    intros p'. cbn [add_port w_ports]. rewrite nth_app_last. intros [= <-] F. exists s, 0. cbn in F. split; auto. unfold ip_ok, open_input_string. cbn. auto.
  - unfold open_out_string. eexists _, _. split; [reflexivity|]. split; [left; reflexivity|].
    intros p'. cbn [add_port w_ports]. rewrite nth_app_last. intros [= <-] F. exists []. unfold op_ok, open_output_string. cbn [pt_closed op_buf op_cap op_len op_closed length firstn].
    rewrite repeat_length. repeat split; try lia.
  - unfold make_soft_port. destruct procs as [pv|]; [|apply SAME]. destruct modes as [m|]; [|apply SAME].
    repeat match goal with |- context [if ?x then _ else _] => destruct x end; try apply SAME.
    eexists _, _. split; [reflexivity|]. split; [left; reflexivity|]. intros p'. cbn [add_port w_ports]. rewrite nth_app_last. intros [= <-] F. exact Logic.I.
  - destruct ch; apply SAME.
  - destruct (pt_input p); [|apply SAME]. eexists _, _. split; [reflexivity|]. split; [left; reflexivity|]. intros p'. cbn. rewrite LEN. discriminate.
  - destruct (pt_input p); [apply SAME|]. eexists _, _. split; [reflexivity|]. split; [left; reflexivity|]. intros p'. cbn. rewrite LEN. discriminate.
  - destruct (pt_input p); [apply SAME|]. eexists _, _. split; [reflexivity|]. split; [left; reflexivity|]. intros p'. cbn. rewrite LEN. discriminate.
Qed.

Lemma fput_ports c w i s w' : fput c w i s = Ok w' -> w_ports w' = w_ports w.
Proof. unfold fput. intros H. repeat inv1; reflexivity. Qed.
Lemma fflush_ports w i w' : fflush w i = Ok w' -> w_ports w' = w_ports w.
Proof. unfold fflush. intros H. repeat inv1; reflexivity. Qed.
Lemma fgetc_ports c w i o w' : fgetc c w i = Ok (o, w') -> w_ports w' = w_ports w.
Proof. unfold fgetc. cbv zeta. intros H. repeat inv1; reflexivity. Qed.
Lemma ungetc_ports w i b w' : ungetc w i b = Ok w' -> w_ports w' = w_ports w.
Proof. unfold ungetc. intros H. repeat inv1; reflexivity. Qed.
Ltac len_tac :=
  repeat match goal with
  | H : fput _ _ _ _ = Ok _ |- _ => apply fput_ports in H
  | H : fflush _ _ = Ok _ |- _ => apply fflush_ports in H
  | H : fclose _ _ = Ok _ |- _ => apply fclose_ports in H
  | H : fgetc _ _ _ = Ok _ |- _ => apply fgetc_ports in H
  | H : ungetc _ _ _ = Ok _ |- _ => apply ungetc_ports in H
  | H : call_slot _ _ _ _ = _ |- _ => apply call_slot_ports in H
  end; cbn [set_port w_ports]; rewrite ?set_nth_len; congruence.
Lemma peek_len c w p o w' : peek_from c w p = Ok (o, w') -> length (w_ports w') = length (w_ports w).
Proof. unfold peek_from. intros H. repeat inv1; len_tac. Qed.
Lemma target_len c w o k a w' : target o = Some k -> prim c w o = Ok (a, w') -> length (w_ports w') = length (w_ports w).
Proof.
  intros T H. destruct o; cbn [target] in T; try discriminate T; cbn [prim] in H.
  - unfold close_in, close_port in H. repeat inv1; len_tac.
  - unfold close_out, close_port in H. repeat inv1; len_tac.
  - unfold get_string in H. repeat inv1; len_tac.
  - unfold prim_read, read_from in H. cbv zeta in H. repeat inv1; len_tac.
  - unfold prim_peek in H. repeat inv1; try len_tac. eapply peek_len; eauto.
  - unfold prim_ready in H. repeat inv1; try len_tac; eapply peek_len; eauto.
  - unfold prim_write_char, write_char_to in H. cbv zeta in H. repeat inv1; len_tac.
  - unfold prim_print, print_to in H. cbv zeta in H. repeat inv1; len_tac.
  - unfold prim_print, print_to in H. cbv zeta in H. repeat inv1; len_tac.
  - unfold prim_force, flush_port in H. cbv zeta in H. repeat inv1; len_tac.
Qed.

Lemma missing_port c w o k : target o = Some k -> nth_error (w_ports w) k = None -> prim c w o = Ok (RRaise, w).
Proof.
  intros T N. apply get_port_none in N. destruct o; cbn [target] in T; try discriminate T;
    repeat match goal with
    | a : option arg |- _ => destruct a as [[]|]; try discriminate T
    | a : arg |- _ => destruct a; try discriminate T
    end; injection T as T; subst k0; cbn [prim];
    unfold close_in, close_out, get_string, prim_read, prim_peek, prim_ready, prim_write_char, prim_print, prim_force; cbn [opt_arg]; rewrite ?N; auto.
  destruct ch; auto.
Qed.
Lemma stdout_ok c w o h : to_stdout o = true -> nth_error (w_handles w) 1 = Some (HOut h) ->
  exists a w', prim c w o = Ok (a, w') /\ w_ports w' = w_ports w /\ exists h', nth_error (w_handles w') 1 = Some (HOut h').
Proof.
  intros S N. destruct o; cbn [to_stdout] in S; try discriminate S; cbn [prim];
    (destruct (opt_arg_cases a) as [(E & _)|(b & _ & E & _)]; [|rewrite E in S; discriminate S]).
  - unfold prim_write_char. rewrite E. destruct ch as [b|]; [|eauto 8].
    destruct (fput_total c w 1 h [b] N) as (w' & -> & A & Y). cbn [bind]. eauto 8.
  - unfold prim_print. rewrite E. destruct (fput_total c w 1 h text N) as (w' & -> & A & Y). cbn [bind]. eauto 8.
  - unfold prim_print. rewrite E. destruct (fput_total c w 1 h [10%Z] N) as (w' & -> & A & Y). cbn [bind]. eauto 8.
  - unfold prim_force. rewrite E. destruct (fflush_total w 1 h N) as (w' & -> & A & Y). cbn [bind]. eauto 8.
Qed.

Lemma safe_step c w tot o : safe w tot -> fits o -> o <> CloseOut (APort 2) -> (tot + osize o + 2 < strlim)%Z ->
  exists a w', step c w o = Ok (a, w') /\ safe w' (tot + osize o).
Proof.
  intros [W (p2 & P2 & F2) M T0] FI NC B. pose proof (osize_nonneg o) as OS. unfold step.
  assert (H1 : exists h, nth_error (w_handles w) 1 = Some (HOut h)).
  { pose proof (M _ _ P2) as Q. pose proof (wf_two_out _ W _ P2) as O. pose proof (wf_good _ W _ _ P2) as G.
    unfold pmatch, file_of, good in *. destruct (pt_kind p2) as [[]|[]|q|q|]; try discriminate F2.
    - destruct G. congruence.
    - inversion F2; subst. exact Q. }
  assert (NL : nth_error (w_ports w) (length (w_ports w)) = None) by now apply nth_error_None.
  assert (X : exists a w', prim c (tick w) o = Ok (a, w') /\
     (exists q, nth_error (w_ports w') 2 = Some q /\ file_of q = Some 1) /\
     (forall k p', target o = Some k -> nth_error (w_ports w') k = Some p' -> pmatch w' (tot + osize o) p') /\
     (to_stdout o = true -> exists h, nth_error (w_handles w') 1 = Some (HOut h)) /\
     (forall p', nth_error (w_ports w') (length (w_ports w)) = Some p' -> pmatch w' (tot + osize o) p')).
  { destruct (target o) as [k|] eqn:T.
    - assert (NS : to_stdout o = false) by (destruct (to_stdout o) eqn:Q; auto; apply stdout_target in Q; congruence).
      destruct (nth_error (w_ports w) k) as [p|] eqn:P.
      + assert (P' : nth_error (w_ports (tick w)) k = Some p) by exact P.
        destruct (target_ok c (tick w) k p o tot P' (wf_good _ W _ _ P)) as (a & w' & p' & E & N & PM & FO); auto.
        { exact (M k p P). }
        exists a, w'. split; auto. assert (F := prim_frame _ _ _ _ _ E). rewrite T in F.
        split; [|split; [|split; [congruence|]]].
        * destruct (Nat.eq_dec k 2) as [-> |NE].
          -- exists p'. split; auto. assert (p = p2) by congruence. subst p. rewrite FO; auto. eapply (wf_two_out _ W); eauto.
          -- exists p2. split; auto. eapply f_keep; eauto. congruence.
        * intros j q [= <-] Q. congruence.
        * intros q Q. apply nth_lt in Q. rewrite (target_len _ _ _ _ _ _ T E) in Q. cbn in Q. lia.
      + exists RRaise, (tick w). rewrite (missing_port c (tick w) o k T P). split; auto. split; [eauto|]. split; [|split; [congruence|]].
        * intros j q [= <-] Q. cbn in Q. congruence.
        * intros q Q. cbn in Q. congruence.
    - destruct (to_stdout o) eqn:S.
      + destruct H1 as (h & H1). destruct (stdout_ok c (tick w) o h S H1) as (a & w' & E & Y & A). exists a, w'. split; auto. rewrite Y. split; [eauto|].
        split; [discriminate|]. split; auto. intros q Q. cbn in Q. congruence.
      + destruct (no_port_ok c (tick w) o T S) as (a & w' & E & _ & A). exists a, w'. split; auto.
        assert (F := prim_frame _ _ _ _ _ E). rewrite T in F.
        split; [exists p2; split; auto; eapply f_keep; eauto; discriminate|]. split; [discriminate|]. split; [discriminate|].
        intros p' Q. eapply pmatch_mono; [apply A; auto|lia]. }
  destruct X as (a & w' & E & S2 & ST & SO & SN). exists a, w'. split; auto.
  assert (F : frame w w' (target o) (handle_of w o) (opened o)) by (apply (step_frame c w o a w'); exact E).
  constructor; auto; try lia.
  - eapply wf_frame; eauto.
  - intros j p' N. destruct (target_dec o j) as [T|T]; [eauto|].
    destruct (f_new _ _ _ _ _ F j p' N T) as [A|[-> A]]; [|auto].
    destruct (to_stdout o && Nat.eqb j 2)%bool eqn:Q.
    + apply andb_true_iff in Q. destruct Q as [Q1 Q2]. apply Nat.eqb_eq in Q2. subst j.
      destruct (SO Q1) as (h & H). assert (p' = p2) by congruence. subst p'.
      pose proof (wf_two_out _ W _ P2) as O. pose proof (wf_good _ W _ _ P2) as G.
      unfold pmatch, file_of, good in *. destruct (pt_kind p2) as [[]|[]|q|q|]; try discriminate F2.
      * destruct G. congruence.
      * inversion F2; subst. eauto.
    + apply (pmatch_handles w); [eapply pmatch_mono; [apply M with j; auto|lia]|].
      intros i FO. apply (f_hkeep _ _ _ _ _ F); [eapply (wf_lt _ W); eauto|].
      intros HH. eapply handle_of_target in HH; eauto. destruct HH as [HH|[HH ->]]; [contradiction|]. rewrite HH in Q. discriminate Q.
Qed.
Lemma printed_nonneg h : (0 <= printed h)%Z.
Proof. induction h as [|o h IH]; cbn [printed fold_right]; [lia|]. fold (printed h). pose proof (osize_nonneg o). lia. Qed.
Lemma safe_run c : forall h w tot, safe w tot -> (forall o, In o h -> fits o /\ o <> CloseOut (APort 2)) -> (tot + printed h + 2 < strlim)%Z ->
  exists l w', run c w h = Ok (l, w').
Proof.
  induction h as [|o h IH]; intros w tot SF N L; cbn [run]; [eauto|].
  cbn [printed fold_right] in L. fold (printed h) in L. pose proof (osize_nonneg o). pose proof (printed_nonneg h).
  destruct (N o (or_introl eq_refl)) as [N1 N2].
  destruct (safe_step c w tot o SF N1 N2) as (a & w1 & E & S1); [lia|]. rewrite E. cbn [bind].
  destruct (IH w1 _ S1 (fun o' I => N o' (or_intror I)) ltac:(lia)) as (l & w2 & E2). rewrite E2. cbn [bind]. eauto.
Qed.
Lemma safe_boot files input : safe (boot files input) 0.
Proof.
  constructor; try lia.
  - apply wf_boot.
  - eexists. split; reflexivity.
  - intros [|[|[|j]]] p H; cbn in H; try (destruct j; discriminate H); inversion H; subst; unfold pmatch; cbn; eauto.
Qed.
