(** C90: soft ports.  C91: closing, direction, isolation, safety. *)
From Coq Require Import Lia String.
From Verif Require Import Base NumModel StringModel ParseModel PrintModel PortModel PortSpec PortProofs PsysModel PsysSpec PsysProofs PsysProofs2 PsysProofs3 PsysProofs4 PortProperties PsysProperties PsysProperties2.
Local Open Scope list_scope.
Local Open Scope nat_scope.

Lemma slot_call_at pv i args c w : call_slot c w (slot_at pv i) args =
  match nth_error pv i with
  | Some (SlProc n) => (Some (c_soft c n args (w_calls w)), set_calls w (w_calls w ++ slot_call pv i args))
  | _ => (None, w)
  end.
Proof.
  unfold slot_at, slot_call, call_slot. destruct (nth_error pv i) as [s|] eqn:E.
  - rewrite (nth_error_nth _ _ _ E). now destruct s.
  - rewrite nth_overflow; auto. now apply nth_error_None.
Qed.
Lemma make_inv c w pv m k w1 : step c w (MakeSoft (Some pv) (Some m)) = Ok (RPort k, w1) ->
  k = length (w_ports w) /\ nth_error (w_ports w1) k = Some (mkPort (KSoft pv m) (has 114 m) false).
Proof.
  unfold step. cbn [prim make_soft_port]. intros H. repeat inv1. cbn [tick w_ports]. split; auto. cbn [add_port w_ports tick]. apply nth_app_last.
Qed.
Definition soft_at (w : world) (k : nat) (pv : list slot) (m : list Z) (cl : bool) : Prop :=
  nth_error (w_ports w) k = Some (mkPort (KSoft pv m) (has 114 m) cl).
Lemma soft_step c w k pv m cl o a w' : wf w -> soft_at w k pv m cl -> step c w o = Ok (a, w') ->
  soft_at w' k pv m (cl || closed_ok k [o] [a]).
Proof.
  intros W S H. destruct (target_dec o k) as [T | T].
  2:{ assert (F := step_frame _ _ _ _ _ H). replace (closed_ok k [o] [a]) with false.
      - rewrite orb_false_r. exact (f_keep _ _ _ _ _ F _ _ S T).
      - symmetry. cbn [closed_ok]. destruct o; auto; destruct a0; auto; destruct a; auto; cbn [target arg_target] in T;
        rewrite orb_false_r; apply Nat.eqb_neq; congruence. }
  unfold step in H. unfold soft_at in *. assert (G : get_port (tick w) (APort k) = Some (k, mkPort (KSoft pv m) (has 114 m) cl)).
  { cbn [get_port tick w_ports]. now rewrite S. }
  assert (SP : forall x, set_port x k (mkPort (KSoft pv m) (has 114 m) true) = set_port x k (mkPort (KSoft pv m) (has 114 m) true)) by reflexivity.
  destruct o; cbn [target arg_target opt_target] in T; try discriminate T;
    try (match goal with x : option arg |- _ => destruct x as [x|]; [|discriminate T] end);
    match goal with x : arg |- _ => destruct x; try discriminate T end;
    cbn [arg_target] in T; injection T as ->; cbn [prim] in H;
    unfold close_in, close_out, get_string, prim_read, prim_peek, prim_ready, prim_write_char, prim_print, prim_force in H;
    cbn [opt_arg] in H; try rewrite G in H; cbn [pt_input pt_kind pt_closed] in H; cbn [closed_ok]; rewrite ?Nat.eqb_refl.
  all: unfold close_port, read_from, peek_from, write_char_to, print_to, flush_port in H; cbn [pt_input pt_kind pt_closed] in H.
  all: repeat inv1; cbn [orb]; rewrite ?orb_false_r; auto;
    try (match goal with F : call_slot _ _ _ _ = (_, ?v) |- _ => apply call_slot_ports in F end);
    cbn [set_port w_ports] in *;
    try (match goal with F : w_ports ?v = _ |- context [w_ports ?v] => rewrite F; cbn [tick w_ports]; auto end);
    try (apply set_nth_same; exact (nth_lt _ _ _ S)).
Qed.
Lemma closed_ok_cons k o h a l : closed_ok k (o :: h) (a :: l) = closed_ok k [o] [a] || closed_ok k h l.
Proof. cbn [closed_ok]. destruct o; auto; destruct a0; auto; destruct a; auto; now rewrite orb_false_r. Qed.
Lemma soft_run c k pv m : forall h w cl l w', wf w -> soft_at w k pv m cl -> run c w h = Ok (l, w') -> soft_at w' k pv m (cl || closed_ok k h l).
Proof.
  induction h as [|o h IH]; intros w cl l w' W S H.
  - cbn [run] in H. injection H as <- <-. cbn [closed_ok]. now rewrite orb_false_r.
  - apply run_cons in H. destruct H as (a & l1 & w1 & A & B & ->). rewrite closed_ok_cons, orb_assoc.
    exact (IH _ _ _ _ (wf_step _ _ _ _ _ W A) (soft_step _ _ _ _ _ _ _ _ _ W S A) B).
Qed.
Lemma soft_after c w pv m k w1 h l w2 : reachable c w -> step c w (MakeSoft (Some pv) (Some m)) = Ok (RPort k, w1) ->
  run c w1 h = Ok (l, w2) -> soft_at w2 k pv m (closed_ok k h l).
Proof.
  intros R M H. assert (W := wf_reachable _ _ R). destruct (make_inv _ _ _ _ _ _ M) as (_ & S).
  exact (soft_run _ _ _ _ _ _ _ _ _ (wf_step _ _ _ _ _ W M) S H).
Qed.
Lemma has_until ch m : ~ In 0%Z m -> soft_has ch m = has ch m.
Proof. intros N. unfold soft_has. now rewrite until_nul_id. Qed.
Lemma has_in ch m : has ch m = true <-> In ch m.
Proof.
  unfold has. rewrite existsb_exists. split.
  - intros (x & I & E). apply Z.eqb_eq in E. now subst.
  - intros I. exists ch. split; auto. apply Z.eqb_refl.
Qed.
Lemma has_not_in ch m : ~ In ch m -> has ch m = false.
Proof. intros N. destruct (has ch m) eqn:E; auto. apply has_in in E. contradiction. Qed.

(** ** C90: what the primitives do with a soft port *)
(* make-soft-port accepts a vector of five or six elements and a mode string
   with an r or a w in it, and nothing else *)
Theorem c90_make : forall c w procs modes a w', step c w (MakeSoft procs modes) = Ok (a, w') ->
  (exists k, a = RPort k) <->
  exists pv m, procs = Some pv /\ modes = Some m /\ (length pv = 5 \/ length pv = 6) /\ (In 114%Z m \/ In 119%Z m).
Proof.
  intros c w procs modes a w' H. unfold step in H. cbn [prim] in H. unfold make_soft_port in H.
  destruct procs as [pv|]; [|injection H as <- <-; split; [intros (k & E); discriminate E | intros (pv & m & E & _); discriminate E]].
  destruct modes as [m|]; [|injection H as <- <-; split; [intros (k & E); discriminate E | intros (pv' & m & _ & E & _); discriminate E]].
  assert (L : (Nat.ltb (length pv) 5 || Nat.ltb 6 (length pv))%bool = false <-> length pv = 5 \/ length pv = 6).
  { rewrite orb_false_iff, !Nat.ltb_ge. lia. }
  assert (M : (has 114 m || has 119 m)%bool = true <-> In 114%Z m \/ In 119%Z m).
  { rewrite orb_true_iff, !has_in. reflexivity. }
  destruct (Nat.ltb (length pv) 5 || Nat.ltb 6 (length pv))%bool; [|destruct (has 114 m || has 119 m)%bool]; injection H as <- <-.
  - split; [intros (k & E); discriminate E|]. intros (pv' & m' & E1 & E2 & A & B). injection E1 as <-. apply L in A. discriminate A.
  - split; [intros _; exists pv, m; split; [reflexivity|]; split; [reflexivity|]; split; [now apply L | now apply M]|]. intros _. eexists. reflexivity.
  - split; [intros (k & E); discriminate E|]. intros (pv' & m' & E1 & E2 & A & B). injection E2 as <-. apply M in B. discriminate B.
Qed.
Print Assumptions c90_make.

(* an open output soft port: write-char calls element 0 once with the character,
   force-output element 2, the close element 4; a slot that holds no procedure
   is not called; an exit from the procedure is passed on *)
Theorem c90_output : forall c w pv m k w1 h l w2 o i args a w3,
  reachable c w -> step c w (MakeSoft (Some pv) (Some m)) = Ok (RPort k, w1) ->
  ~ In 114%Z m -> ~ In 0%Z m ->
  run c w1 h = Ok (l, w2) -> closed_ok k h l = false ->
  (o = CloseOut (APort k) /\ i = 4 /\ args = [] \/ o = ForceOutput (Some (APort k)) /\ i = 2 /\ args = [] \/
   exists b, o = WriteChar (Some b) (Some (APort k)) /\ i = 0 /\ args = [b]) ->
  step c w2 o = Ok (a, w3) ->
  w_calls w3 = w_calls w2 ++ slot_call pv i args /\
  a = match nth_error pv i with
      | Some (SlProc n) => match c_soft c n args (w_calls w2) with SaRaise => RRaise | _ => RNone end
      | _ => RNone
      end.
Proof.
  intros c w pv m k w1 h l w2 o i args a w3 R M N1 N2 H C D S3.
  assert (S := soft_after _ _ _ _ _ _ _ _ _ R M H). rewrite C in S. unfold soft_at in S.
  assert (HR : has 114 m = false) by now apply has_not_in.
  assert (HW : has 119 m = true).
  { destruct (proj1 (c90_make _ _ _ _ _ _ M) (ex_intro _ k eq_refl)) as (pv' & m' & E1 & E2 & _ & E3). injection E2 as <-.
    apply has_in. tauto. }
  assert (HWU : soft_has 119 m = true) by now rewrite has_until.
  rewrite HR in S. unfold step in S3.
  assert (G : get_port (tick w2) (APort k) = Some (k, mkPort (KSoft pv m) false false)).
  { cbn [get_port tick w_ports]. now rewrite S. }
  destruct D as [(-> & -> & ->) | [(-> & -> & ->) | (b & -> & -> & ->)]]; cbn [prim] in S3;
    unfold close_out, prim_force, prim_write_char in S3; cbn [opt_arg] in S3; rewrite G in S3; cbn [pt_input pt_kind pt_closed] in S3.
  - unfold close_port in S3. cbn [pt_input pt_kind pt_closed] in S3. rewrite slot_call_at in S3. unfold slot_call in *.
    destruct (nth_error pv 4) as [[|n|]|]; try (injection S3 as <- <-; cbn [set_port tick w_calls]; now rewrite app_nil_r).
    cbn [tick w_calls] in S3. destruct (c_soft c n [] (w_calls w2)); injection S3 as <- <-; split; reflexivity.
  - unfold flush_port in S3. cbn [pt_input pt_kind pt_closed] in S3. rewrite slot_call_at in S3. unfold slot_call in *.
    destruct (nth_error pv 2) as [[|n|]|]; try (injection S3 as <- <-; cbn [set_port tick w_calls]; now rewrite app_nil_r).
    cbn [tick w_calls] in S3. destruct (c_soft c n [] (w_calls w2)); injection S3 as <- <-; split; reflexivity.
  - rewrite HWU in S3. unfold write_char_to in S3. cbn [pt_input pt_kind pt_closed] in S3. rewrite slot_call_at in S3. unfold slot_call in *.
    destruct (nth_error pv 0) as [[|n|]|]; try (injection S3 as <- <-; cbn [set_port tick w_calls]; now rewrite app_nil_r).
    cbn [tick w_calls] in S3. destruct (c_soft c n [b] (w_calls w2)); injection S3 as <- <-; split; reflexivity.
Qed.
Print Assumptions c90_output.

(* an open input soft port: read-char calls element 3 once and answers the
   character it gives, end-of-file for anything else; close calls element 4 *)
Theorem c90_input : forall c w pv m k w1 h l w2 o i a w3,
  reachable c w -> step c w (MakeSoft (Some pv) (Some m)) = Ok (RPort k, w1) ->
  In 114%Z m -> ~ In 0%Z m ->
  run c w1 h = Ok (l, w2) -> closed_ok k h l = false ->
  (o = CloseIn (APort k) /\ i = 4 \/ o = ReadChar (Some (APort k)) /\ i = 3) ->
  step c w2 o = Ok (a, w3) ->
  w_calls w3 = w_calls w2 ++ slot_call pv i [] /\
  a = match i, nth_error pv i with
      | 3, Some (SlProc n) => match c_soft c n [] (w_calls w2) with SaChar b => RChar' b | SaRaise => RRaise | _ => REof end
      | 3, _ => REof
      | _, Some (SlProc n) => match c_soft c n [] (w_calls w2) with SaRaise => RRaise | _ => RNone end
      | _, _ => RNone
      end.
Proof.
  intros c w pv m k w1 h l w2 o i a w3 R M I1 N2 H C D S3.
  assert (S := soft_after _ _ _ _ _ _ _ _ _ R M H). rewrite C in S. unfold soft_at in S.
  assert (HR : has 114 m = true) by now apply has_in.
  assert (HRU : soft_has 114 m = true) by now rewrite has_until.
  rewrite HR in S. unfold step in S3.
  assert (G : get_port (tick w2) (APort k) = Some (k, mkPort (KSoft pv m) true false)).
  { cbn [get_port tick w_ports]. now rewrite S. }
  destruct D as [(-> & ->) | (-> & ->)]; cbn [prim] in S3;
    unfold close_in, prim_read in S3; cbn [opt_arg] in S3; rewrite G in S3; cbn [pt_input pt_kind pt_closed] in S3.
  - unfold close_port in S3. cbn [pt_input pt_kind pt_closed] in S3. rewrite slot_call_at in S3. unfold slot_call in *.
    destruct (nth_error pv 4) as [[|n|]|]; try (injection S3 as <- <-; cbn [set_port tick w_calls]; now rewrite app_nil_r).
    cbn [tick w_calls] in S3. destruct (c_soft c n [] (w_calls w2)); injection S3 as <- <-; split; reflexivity.
  - rewrite HRU in S3. unfold read_from in S3. cbn [pt_input pt_kind pt_closed] in S3. rewrite slot_call_at in S3. unfold slot_call in *.
    destruct (nth_error pv 3) as [[|n|]|]; try (injection S3 as <- <-; cbn [set_port tick w_calls]; now rewrite app_nil_r).
    cbn [tick w_calls] in S3. destruct (c_soft c n [] (w_calls w2)); injection S3 as <- <-; split; reflexivity.
Qed.
Print Assumptions c90_input.

(* after a close that was not left non-locally, nothing calls any procedure of
   the port again; a close whose procedure exits leaves the port open *)
Lemma not_soft_quiet c w o a w' : (forall k, target o = Some k -> ~ soft_port w k) -> step c w o = Ok (a, w') -> w_calls w' = w_calls w.
Proof.
  intros N H. assert (N' : forall k, target o = Some k -> ~ soft_port (tick w) k) by exact N. clear N.
  change (w_calls w) with (w_calls (tick w)). unfold step in H. generalize dependent (tick w). clear w. intros w H N.
  assert (FP : forall v i s v', fput c v i s = Ok v' -> w_calls v' = w_calls v) by (unfold fput, push; intros v i s v' F; repeat inv1; reflexivity).
  assert (FF : forall v i v', fflush v i = Ok v' -> w_calls v' = w_calls v) by (unfold fflush, push; intros v i v' F; repeat inv1; reflexivity).
  assert (FC : forall v i v', fclose v i = Ok v' -> w_calls v' = w_calls v) by (unfold fclose, push; intros v i v' F; repeat inv1; reflexivity).
  assert (FG : forall v i s v', fgetc c v i = Ok (s, v') -> w_calls v' = w_calls v) by (unfold fgetc; intros v i s v' F; repeat inv1; reflexivity).
  assert (UG : forall v i b v', ungetc v i b = Ok v' -> w_calls v' = w_calls v) by (unfold ungetc; intros v i b v' F; repeat inv1; reflexivity).
  assert (PK : forall v p s v', peek_from c v p = Ok (s, v') -> w_calls v' = w_calls v).
  { unfold peek_from; intros v p s v' F; repeat inv1; auto;
    repeat match goal with F : fgetc _ _ _ = Ok _ |- _ => apply FG in F | F : ungetc _ _ _ = Ok _ |- _ => apply UG in F end; congruence. }
  assert (NS : forall k p pv m, target o = Some k -> nth_error (w_ports w) k = Some p -> pt_kind p = KSoft pv m -> False).
  { intros k p pv m T P K. apply (N k T). now exists p, pv, m. }
  destruct o; cbn [prim] in H; cbn [target] in NS; clear N;
    unfold open_input_file, open_output_file, open_in_string, open_out_string, make_soft_port, close_in, close_out, get_string, prim_read, prim_peek, prim_ready, prim_write_char, prim_print, prim_force in H;
    try (destruct (opt_arg_cases a0) as [(OA & _) | (b & OA & _ & OB)]; rewrite OA in H; [| rewrite OB in NS]).
  all: repeat match type of H with
    | context [get_port ?v ?x] => destruct (get_port v x) as [[kk pp]|] eqn:G; [apply get_port_nth in G; destruct G as (G & ->); pose proof (fun pv m => NS kk pp pv m eq_refl G) as NS2|]
    end.
  all: unfold close_port, read_from, write_char_to, print_to, flush_port in H.
  all: repeat inv1; auto;
    repeat match goal with
    | F : fput _ _ _ _ = Ok _ |- _ => apply FP in F | F : fflush _ _ = Ok _ |- _ => apply FF in F
    | F : fclose _ _ = Ok _ |- _ => apply FC in F | F : fgetc _ _ _ = Ok _ |- _ => apply FG in F
    | F : peek_from _ _ _ = Ok _ |- _ => apply PK in F end; cbn [set_port w_calls]; try congruence;
    try (exfalso; eapply NS2; eassumption).
Qed.
(* operations on other kinds of ports, or on no port, never call a soft-port
   procedure *)
Theorem c90_only_soft : forall c w o a w', (forall k, target o = Some k -> ~ soft_port w k) -> step c w o = Ok (a, w') -> w_calls w' = w_calls w.
Proof. exact not_soft_quiet. Qed.
Print Assumptions c90_only_soft.
Lemma soft_closed_quiet c w k pv m o a w' : soft_at w k pv m true -> target o = Some k -> step c w o = Ok (a, w') -> w' = tick w.
Proof.
  intros S T H. unfold step in H. unfold soft_at in *.
  assert (G : get_port (tick w) (APort k) = Some (k, mkPort (KSoft pv m) (has 114 m) true)).
  { cbn [get_port tick w_ports]. now rewrite S. }
  destruct o; cbn [target arg_target opt_target] in T; try discriminate T;
    try (match goal with x : option arg |- _ => destruct x as [x|]; [|discriminate T] end);
    match goal with x : arg |- _ => destruct x; try discriminate T end;
    cbn [arg_target] in T; injection T as ->; cbn [prim] in H;
    unfold close_in, close_out, get_string, prim_read, prim_peek, prim_ready, prim_write_char, prim_print, prim_force in H;
    cbn [opt_arg] in H; try rewrite G in H; cbn [pt_input pt_kind pt_closed] in H;
    unfold close_port, read_from, peek_from, write_char_to, print_to, flush_port in H; cbn [pt_input pt_kind pt_closed] in H;
    repeat inv1; auto.
Qed.
(* once closed, a soft port's procedures are never called through it again:
   every operation on it leaves everything as it was *)
Theorem c90_closed_silent : forall c w pv m k w1 h l w2 o a w3,
  reachable c w -> step c w (MakeSoft (Some pv) (Some m)) = Ok (RPort k, w1) ->
  run c w1 h = Ok (l, w2) -> closed_ok k h l = true ->
  target o = Some k -> step c w2 o = Ok (a, w3) -> w3 = tick w2.
Proof.
  intros c w pv m k w1 h l w2 o a w3 R M H C T S3.
  assert (S := soft_after _ _ _ _ _ _ _ _ _ R M H). rewrite C in S. exact (soft_closed_quiet _ _ _ _ _ _ _ _ S T S3).
Qed.
Print Assumptions c90_closed_silent.

(* the procedures: element 0 is procedure 7, element 3 procedure 8, 4 procedure 9 *)
Definition vec5 : list slot := [SlProc 7; SlFalse; SlFalse; SlProc 8; SlProc 9].
Definition echo : cfg := mkCfg (fun _ _ _ => 0) (fun _ _ => 0) (fun _ _ => true)
  (fun n args calls => match n with 8 => SaChar (65 + Z.of_nat (length calls)) | _ => SaFalse end).
Example c90_demo : exists w, run echo home
  [MakeSoft (Some vec5) (Some (bs "w")); MakeSoft (Some vec5) (Some (bs "r")); WriteChar (Some 97%Z) (Some (APort 3)); ReadChar (Some (APort 4));
   ForceOutput (Some (APort 3)); ReadChar (Some (APort 4)); CloseOut (APort 3); WriteChar (Some 98%Z) (Some (APort 3)); CloseOut (APort 3);
   CloseIn (APort 4); ReadChar (Some (APort 4))] =
  Ok ([RPort 3; RPort 4; RNone; RChar' 66; RNone; RChar' 67; RNone; RNone; RNone; RNone; REof], w) /\
  w_calls w = [(7, [97%Z]); (8, []); (8, []); (9, []); (9, [])].
Proof. eexists. split; vm_compute; reflexivity. Qed.
Example c90_modes : ~ In 114%Z (bs "w") /\ ~ In 0%Z (bs "w") /\ In 114%Z (bs "r") /\ ~ In 0%Z (bs "r").
Proof. vm_compute. intuition congruence. Qed.

(** *** What does not hold *)
(* display, write and newline on an open output soft port are silently lost *)
Theorem c119_print_refuted : forall c w pv m k w1 h l w2,
  reachable c w -> step c w (MakeSoft (Some pv) (Some m)) = Ok (RPort k, w1) -> ~ In 114%Z m ->
  run c w1 h = Ok (l, w2) -> closed_ok k h l = false ->
  (forall t, step c w2 (Print t (Some (APort k))) = Ok (RNone, tick w2)) /\
  step c w2 (Newline (Some (APort k))) = Ok (RNone, tick w2).
Proof.
  intros c w pv m k w1 h l w2 R M N H C. assert (S := soft_after _ _ _ _ _ _ _ _ _ R M H). rewrite C in S. unfold soft_at in S.
  rewrite (has_not_in _ _ N) in S. unfold step. cbn [prim]. unfold prim_print. cbn [opt_arg get_port tick w_ports]. rewrite S.
  cbn [pt_input]. unfold print_to. cbn [pt_kind pt_closed]. split; auto.
Qed.
Print Assumptions c119_print_refuted.
(* peek-char on a soft port always says end of file and char-ready? always #f,
   whatever read-char would answer *)
Theorem c119_peek_refuted : forall c w pv m k w1 h l w2,
  reachable c w -> step c w (MakeSoft (Some pv) (Some m)) = Ok (RPort k, w1) -> In 114%Z m ->
  run c w1 h = Ok (l, w2) ->
  step c w2 (PeekChar (Some (APort k))) = Ok (REof, tick w2) /\ step c w2 (CharReady (Some (APort k))) = Ok (RBool false, tick w2).
Proof.
  intros c w pv m k w1 h l w2 R M N H. assert (S := soft_after _ _ _ _ _ _ _ _ _ R M H). unfold soft_at in S.
  rewrite (proj2 (has_in _ _) N) in S. unfold step. cbn [prim]. unfold prim_peek, prim_ready. cbn [opt_arg get_port tick w_ports]. rewrite S.
  cbn [pt_input pt_closed pt_kind]. unfold peek_from. cbn [pt_closed pt_kind]. destruct (closed_ok k h l); split; reflexivity.
Qed.
Print Assumptions c119_peek_refuted.
(* a port made with modes "rw" is not an output port: output-port? is #f,
   write-char is accepted but dropped, display raises an error *)
Theorem c119_rw_refuted : forall c w pv m k w1 h l w2,
  reachable c w -> step c w (MakeSoft (Some pv) (Some m)) = Ok (RPort k, w1) -> In 114%Z m -> In 119%Z m -> ~ In 0%Z m ->
  run c w1 h = Ok (l, w2) ->
  step c w2 (IsOutput (APort k)) = Ok (RBool false, tick w2) /\
  (forall b, step c w2 (WriteChar (Some b) (Some (APort k))) = Ok (RNone, tick w2)) /\
  (forall t, step c w2 (Print t (Some (APort k))) = Ok (RRaise, tick w2)) /\
  step c w2 (CloseOut (APort k)) = Ok (RRaise, tick w2).
Proof.
  intros c w pv m k w1 h l w2 R M N1 N2 N3 H. assert (S := soft_after _ _ _ _ _ _ _ _ _ R M H). unfold soft_at in S.
  rewrite (proj2 (has_in _ _) N1) in S. unfold step. cbn [prim]. unfold prim_print, prim_write_char, close_out. cbn [opt_arg get_port tick w_ports]. rewrite S.
  cbn [pt_input pt_closed pt_kind]. rewrite has_until by auto. rewrite (proj2 (has_in _ _) N2).
  split; [reflexivity|]. split; [|split; reflexivity]. intros b. unfold write_char_to. cbn [pt_closed pt_kind pt_input].
  destruct (closed_ok k h l); reflexivity.
Qed.
Print Assumptions c119_rw_refuted.
(* a NUL before the mode letter: the port is made, input-port? holds, but
   read-char raises *)
Theorem c119_nul_mode_refuted : forall c pv, length pv = 5 ->
  exists w, run c home [MakeSoft (Some pv) (Some [0; 114]%Z); IsInput (APort 3); ReadChar (Some (APort 3))] =
    Ok ([RPort 3; RBool true; RRaise], w).
Proof.
  intros c pv L. unfold run, step. cbn [prim]. unfold make_soft_port. rewrite L. eexists. reflexivity.
Qed.
Print Assumptions c119_nul_mode_refuted.
(* a closing procedure that exits non-locally leaves the port open: the next
   close calls it again *)
Definition thrower : cfg := mkCfg (fun _ _ _ => 0) (fun _ _ => 0) (fun _ _ => true) (fun _ _ _ => SaRaise).
Theorem c119_close_exit_refuted : exists w,
  run thrower home [MakeSoft (Some vec5) (Some (bs "w")); CloseOut (APort 3); CloseOut (APort 3); WriteChar (Some 97%Z) (Some (APort 3))] =
    Ok ([RPort 3; RRaise; RRaise; RRaise], w) /\ w_calls w = [(9, []); (9, []); (7, [97%Z])].
Proof. eexists. split; vm_compute; reflexivity. Qed.
Print Assumptions c119_close_exit_refuted.

(** ** C91 *)
(* exactly one of input-port? and output-port? holds of a port, the same one for
   ever, and neither of anything else *)
Theorem c91_partition : forall c w k h l w' b, reachable c w -> k < length (w_ports w) ->
  step c w (IsInput (APort k)) = Ok (RBool b, tick w) -> run c w h = Ok (l, w') ->
  step c w' (IsInput (APort k)) = Ok (RBool b, tick w') /\ step c w' (IsOutput (APort k)) = Ok (RBool (negb b), tick w').
Proof.
  intros c w k h l w' b R K I H. assert (W := wf_reachable _ _ R).
  destruct (nth_error (w_ports w) k) as [p|] eqn:P; [|apply nth_error_None in P; lia].
  unfold step in *. cbn [prim get_port tick w_ports] in *. rewrite P in I. injection I as <-.
  destruct (port_persists_run _ _ _ _ _ _ _ W H P) as (p' & P' & L). rewrite P'. destruct L as (-> & _). auto.
Qed.
Print Assumptions c91_partition.
Theorem c91_not_a_port : forall c w a, (forall k, a = APort k -> length (w_ports w) <= k) ->
  step c w (IsInput a) = Ok (RBool false, tick w) /\ step c w (IsOutput a) = Ok (RBool false, tick w).
Proof.
  intros c w [k| |] N; try (split; reflexivity). unfold step. cbn [prim get_port tick w_ports].
  assert (E : nth_error (w_ports w) k = None) by (apply nth_error_None; auto). rewrite E. auto.
Qed.
Print Assumptions c91_not_a_port.

(* an operation of the wrong direction raises an error and changes nothing *)
Theorem c91_direction : forall c w k, ~ soft_port w k ->
  (step c w (IsInput (APort k)) = Ok (RBool true, tick w) ->
     step c w (CloseOut (APort k)) = Ok (RRaise, tick w) /\
     (forall b, step c w (WriteChar (Some b) (Some (APort k))) = Ok (RRaise, tick w)) /\
     (forall t, step c w (Print t (Some (APort k))) = Ok (RRaise, tick w)) /\
     step c w (Newline (Some (APort k))) = Ok (RRaise, tick w) /\
     step c w (ForceOutput (Some (APort k))) = Ok (RRaise, tick w)) /\
  (step c w (IsOutput (APort k)) = Ok (RBool true, tick w) ->
     step c w (CloseIn (APort k)) = Ok (RRaise, tick w) /\
     step c w (ReadChar (Some (APort k))) = Ok (RRaise, tick w) /\
     step c w (PeekChar (Some (APort k))) = Ok (RRaise, tick w) /\
     step c w (CharReady (Some (APort k))) = Ok (RRaise, tick w)).
Proof.
  intros c w k NS. unfold step. cbn [prim]. unfold close_in, close_out, prim_write_char, prim_print, prim_force, prim_read, prim_peek, prim_ready.
  cbn [opt_arg get_port tick w_ports]. destruct (nth_error (w_ports w) k) as [p|] eqn:P; [|split; discriminate].
  assert (K : forall pv m, pt_kind p <> KSoft pv m) by (intros pv m E; apply NS; now exists p, pv, m).
  destruct (pt_input p) eqn:D; (split; intros E; [|]); try discriminate E; cbn [negb];
  destruct (pt_kind p) as [| | | |pv m]; try (elim (K pv m eq_refl)); repeat split.
Qed.
Print Assumptions c91_direction.

(* a closed port stays closed: reading answers end-of-file, writing has no
   effect, closing again is harmless *)
Lemma close_in_closed c w k w1 : wf w -> step c w (CloseIn (APort k)) = Ok (RNone, w1) ->
  exists p, nth_error (w_ports w1) k = Some p /\ pt_closed p = true /\ pt_input p = true.
Proof.
  intros W H. unfold step in H. cbn [prim] in H. unfold close_in in H. destruct (get_port (tick w) (APort k)) as [[k' p]|] eqn:G; [|discriminate H].
  apply get_port_nth in G. destruct G as (P & E). injection E as <-. destruct (pt_input p) eqn:D; [|discriminate H].
  unfold close_port in H. destruct (pt_closed p) eqn:C; [injection H as <-; eauto|].
  assert (SN : forall v q, w_ports v = w_ports w -> nth_error (w_ports (set_port v k q)) k = Some q).
  { intros v q E. cbn [set_port w_ports]. rewrite E. apply set_nth_same. exact (nth_lt _ _ _ P). }
  repeat inv1; repeat match goal with F : fclose _ _ = Ok _ |- _ => apply fclose_ports in F | F : call_slot _ _ _ _ = _ |- _ => apply call_slot_ports in F end;
  eexists; (split; [apply SN; assumption || reflexivity|]); split; auto.
Qed.
Lemma close_out_closed c w k w1 : wf w -> step c w (CloseOut (APort k)) = Ok (RNone, w1) ->
  exists p, nth_error (w_ports w1) k = Some p /\ pt_closed p = true /\ pt_input p = false.
Proof.
  intros W H. unfold step in H. cbn [prim] in H. unfold close_out in H. destruct (get_port (tick w) (APort k)) as [[k' p]|] eqn:G; [|discriminate H].
  apply get_port_nth in G. destruct G as (P & E). injection E as <-. destruct (pt_input p) eqn:D; [discriminate H|].
  unfold close_port in H. destruct (pt_closed p) eqn:C; [injection H as <-; eauto|].
  assert (SN : forall v q, w_ports v = w_ports w -> nth_error (w_ports (set_port v k q)) k = Some q).
  { intros v q E. cbn [set_port w_ports]. rewrite E. apply set_nth_same. exact (nth_lt _ _ _ P). }
  repeat inv1; repeat match goal with F : fclose _ _ = Ok _ |- _ => apply fclose_ports in F | F : call_slot _ _ _ _ = _ |- _ => apply call_slot_ports in F end;
  eexists; (split; [apply SN; assumption || reflexivity|]); split; auto.
Qed.
Theorem c91_closed_input : forall c w k w1 h l w2, reachable c w -> step c w (CloseIn (APort k)) = Ok (RNone, w1) -> run c w1 h = Ok (l, w2) ->
  (~ soft_port w k -> step c w2 (ReadChar (Some (APort k))) = Ok (REof, tick w2)) /\
  step c w2 (PeekChar (Some (APort k))) = Ok (REof, tick w2) /\
  step c w2 (CharReady (Some (APort k))) = Ok (RBool false, tick w2) /\
  step c w2 (CloseIn (APort k)) = Ok (RNone, tick w2).
Proof.
  intros c w k w1 h l w2 R C H. assert (W := wf_reachable _ _ R). assert (W1 := wf_step _ _ _ _ _ W C).
  destruct (close_in_closed _ _ _ _ W C) as (p & P & CL & D).
  destruct (port_persists_run _ _ _ _ _ _ _ W1 H P) as (p' & P' & L).
  assert (p' = p) by (apply L; auto). subst p'.
  unfold step. cbn [prim]. unfold prim_read, prim_peek, prim_ready, close_in. cbn [opt_arg get_port tick w_ports]. rewrite P', D.
  unfold read_from, peek_from, close_port. rewrite CL. split; [|repeat split].
  intros NS. destruct (pt_kind p) as [| | | |pv m] eqn:K; try reflexivity.
  exfalso. apply NS. unfold step in C. assert (F := step_frame _ _ _ _ _ C).
  destruct (f_self _ _ _ _ _ F k p eq_refl P) as (p0 & P0 & LA). destruct LA as (_ & _ & _ & LA). rewrite K in LA.
  destruct (pt_kind p0) as [| | | |pv0 m0] eqn:K0; try contradiction. now exists p0, pv0, m0.
Qed.
Print Assumptions c91_closed_input.
Theorem c91_closed_output : forall c w k w1 h l w2, reachable c w -> step c w (CloseOut (APort k)) = Ok (RNone, w1) -> run c w1 h = Ok (l, w2) ->
  (forall b, ~ soft_port w k -> step c w2 (WriteChar (Some b) (Some (APort k))) = Ok (RNone, tick w2)) /\
  (forall t, step c w2 (Print t (Some (APort k))) = Ok (RNone, tick w2)) /\
  step c w2 (Newline (Some (APort k))) = Ok (RNone, tick w2) /\
  step c w2 (ForceOutput (Some (APort k))) = Ok (RNone, tick w2) /\
  step c w2 (CloseOut (APort k)) = Ok (RNone, tick w2).
Proof.
  intros c w k w1 h l w2 R C H. assert (W := wf_reachable _ _ R). assert (W1 := wf_step _ _ _ _ _ W C).
  destruct (close_out_closed _ _ _ _ W C) as (p & P & CL & D).
  destruct (port_persists_run _ _ _ _ _ _ _ W1 H P) as (p' & P' & L).
  assert (p' = p) by (apply L; auto). subst p'.
  unfold step. cbn [prim]. unfold prim_write_char, prim_print, prim_force, close_out. cbn [opt_arg get_port tick w_ports]. rewrite P', D.
  unfold write_char_to, print_to, flush_port, close_port. rewrite CL. split; [|repeat split].
  intros b NS. destruct (pt_kind p) as [| | | |pv m] eqn:K; try reflexivity.
  exfalso. apply NS. unfold step in C. assert (F := step_frame _ _ _ _ _ C).
  destruct (f_self _ _ _ _ _ F k p eq_refl P) as (p0 & P0 & LA). destruct LA as (_ & _ & _ & LA). rewrite K in LA.
  destruct (pt_kind p0) as [| | | |pv0 m0] eqn:K0; try contradiction. now exists p0, pv0, m0.
Qed.
Print Assumptions c91_closed_output.

(** *** String ports inside the system: as if each were alone (C35, C36) *)
Theorem c91_string_reader : forall c w data k w1 h l w2, reachable c w -> (Z.of_nat (length data) <= int_max)%Z ->
  step c w (OpenInStr (Some data)) = Ok (RPort k, w1) -> run c w1 h = Ok (l, w2) -> answers_in k h l = ideal_reader data k h.
Proof.
  intros c w data k w1 h l w2 R M O H. assert (W := wf_reachable _ _ R). assert (W1 := wf_step _ _ _ _ _ W O).
  refine (reader_run c k (sstate k data) (fun _ => True) _ h w1 data false l w2 W1 _ (fun _ _ => Logic.I) H).
  - intros. eapply sstate_step; eauto.
  - unfold step in O. cbn [prim open_in_string] in O. injection O as <- <-. exists 0, (open_input_string data). split.
    + cbn [add_port tick w_ports]. apply nth_app_last.
    + split; auto. unfold ip_ok, open_input_string. cbn. repeat split; auto.
Qed.
Print Assumptions c91_string_reader.
Lemma out_port c w k w1 h l w2 : reachable c w -> step c w OpenOutStr = Ok (RPort k, w1) -> run c w1 h = Ok (l, w2) ->
  no_nul k h -> (Z.of_nat (length (sent k h)) + 2 <= 2 ^ 30)%Z ->
  exists q, nth_error (w_ports w2) k = Some (mkPort (KStrOut q) false (op_closed q)) /\ get_output q = sent k h.
Proof.
  intros R O H N M. unfold step in O. cbn [prim open_out_string] in O. injection O as <- <-.
  assert (S : ostate (length (w_ports (tick w))) (add_port (tick w) (mkPort (KStrOut open_output_string) false false)) open_output_string).
  { unfold ostate. cbn [add_port w_ports]. apply nth_app_last. }
  destruct (ostate_run _ _ _ _ _ _ _ S H) as (q & A & B).
  destruct (c36_accumulates _ N M) as (q' & C & D). pose proof (eq_trans (eq_sym A) C) as Q. injection Q as ->. exists q'. split; [exact B | exact D].
Qed.
(* the string of an output port is what was written to that port before it was
   closed, whatever happens on other ports; 2^30 is where the buffer's int
   capacity stops growing (C36) *)
Theorem c91_string_writer : forall c w k w1 h l w2, reachable c w -> step c w OpenOutStr = Ok (RPort k, w1) ->
  run c w1 h = Ok (l, w2) -> no_nul k h -> (Z.of_nat (length (sent k h)) + 2 <= 2 ^ 30)%Z ->
  step c w2 (GetStr (APort k)) = Ok (RStr (sent k h), tick w2).
Proof.
  intros c w k w1 h l w2 R O H N M. destruct (out_port _ _ _ _ _ _ _ R O H N M) as (q & P & E).
  unfold step. cbn [prim]. unfold get_string. cbn [get_port tick w_ports]. rewrite P. cbn [pt_kind]. now rewrite E.
Qed.
Print Assumptions c91_string_writer.
(* call-with-output-string answers what its procedure wrote to the port *)
Theorem c91_call_with_output_string : forall c w body r o w', reachable c w ->
  let k := length (w_ports w) in
  no_nul k (body k) -> (Z.of_nat (length (sent k (body k))) + 2 <= 2 ^ 30)%Z ->
  with_output_string c w body (Some r) = Ok (o, w') -> o = Returns (RStr (sent k (body k))).
Proof.
  intros c w body r o w' R k N M H. unfold with_output_string in H.
  destruct (step c w OpenOutStr) as [[a w1]| | | |] eqn:O; cbn [bind] in H; try discriminate H.
  assert (a = RPort k). { unfold step in O. cbn [prim open_out_string] in O. injection O as <- _. reflexivity. }
  subst a. destruct (run c w1 (body k)) as [[l w2]| | | |] eqn:B; cbn [bind] in H; try discriminate H.
  rewrite (c91_string_writer _ _ _ _ _ _ _ R O B N M) in H. cbn [bind] in H. injection H as <- _. reflexivity.
Qed.
Print Assumptions c91_call_with_output_string.
Theorem c91_call_with_input_string : forall c w data body r o w', reachable c w -> (Z.of_nat (length data) <= int_max)%Z ->
  let k := length (w_ports w) in
  with_input_string c w (Some data) body (Some r) = Ok (o, w') -> o = Returns r /\
  exists w1 l, run c w1 (body k) = Ok (l, w') /\ answers_in k (body k) l = ideal_reader data k (body k).
Proof.
  intros c w data body r o w' R M k H. unfold with_input_string in H.
  destruct (step c w (OpenInStr (Some data))) as [[a w1]| | | |] eqn:O; cbn [bind] in H; try discriminate H.
  assert (a = RPort k). { unfold step in O. cbn [prim open_in_string] in O. injection O as <- _. reflexivity. }
  subst a. destruct (run c w1 (body k)) as [[l w2]| | | |] eqn:B; cbn [bind] in H; try discriminate H. injection H as <- <-.
  split; auto. exists w1, l. split; auto. exact (c91_string_reader _ _ _ _ _ _ _ _ R M O B).
Qed.
Print Assumptions c91_call_with_input_string.

(** *** Safety: as long as the port on the process's stdout is not closed, the
    strings opened fit a C int and less than 2^29 bytes are printed in all, no
    history of primitive calls runs into undefined behaviour *)
Theorem c91_safe : forall c files input h,
  (forall s, In (OpenInStr (Some s)) h -> (Z.of_nat (length s) <= int_max)%Z) ->
  ~ In (CloseOut (APort 2)) h ->
  (printed h + 2 < 2 ^ 29)%Z ->
  exists l w, run c (boot files input) h = Ok (l, w).
Proof.
  intros c files input h F C P. refine (safe_run c h (boot files input) 0%Z (safe_boot files input) _ _).
  - intros o I. split.
    + destruct o; cbn [fits]; auto. destruct s; auto.
    + intros ->. contradiction.
  - unfold strlim. lia.
Qed.
Print Assumptions c91_safe.
Example c91_safe_demo : (forall s, In (OpenInStr (Some s)) demo -> (Z.of_nat (length s) <= int_max)%Z) /\
  ~ In (CloseOut (APort 2)) demo /\ (printed demo + 2 < 2 ^ 29)%Z.
Proof.
  split; [|split].
  - intros s I. repeat (destruct I as [I | I]; [discriminate I|]). destruct I.
  - intros I. repeat (destruct I as [I | I]; [discriminate I|]). destruct I.
  - vm_compute. reflexivity.
Qed.
Example c91_string_demo : exists w, run lazy home
  [OpenInStr (Some (bs "xy")); OpenOutStr; ReadChar (Some (APort 3)); Print (bs "p") (Some (APort 4)); Print (bs "q") None;
   PeekChar (Some (APort 3)); CloseIn (APort 3); PeekChar (Some (APort 3)); Newline (Some (APort 4)); CloseOut (APort 4);
   Print (bs "r") (Some (APort 4)); GetStr (APort 4)] =
  Ok ([RPort 3; RPort 4; RChar' 120; RNone; RNone; RChar' 121; RNone; REof; RNone; RNone; RNone; RStr [112; 10]%Z], w).
Proof. eexists. vm_compute. reflexivity. Qed.
