(** Readers: file input ports and string input ports inside the port system. *)
From Coq Require Import Lia.
From Verif Require Import Base NumModel StringModel ParseModel PrintModel PortModel PortSpec PortProofs PsysModel PsysSpec PsysProofs PsysProofs2.
Local Open Scope list_scope.
Local Open Scope nat_scope.

(** ** A generic run lemma *)
Definition rnext (R : world -> list Z -> bool -> Prop) (k : nat) (w' : world) (rest : list Z) (cl : bool) (o : op) (a : ans) : Prop :=
  match on_in k o with
  | None => R w' rest cl
  | Some x => exists a0 rest' cl', a = as_ans a0 /\
      (forall r, stream rest cl (x :: r) = a0 :: stream rest' cl' r) /\ R w' rest' cl'
  end.
Lemma reader_run c k (R : world -> list Z -> bool -> Prop) (okp : op -> Prop) :
  (forall w rest cl o a w', wf w -> R w rest cl -> okp o -> step c w o = Ok (a, w') -> rnext R k w' rest cl o a) ->
  forall h w rest cl l w', wf w -> R w rest cl -> (forall o, In o h -> okp o) -> run c w h = Ok (l, w') ->
  answers_in k h l = map as_ans (stream rest cl (view_in k h)).
Proof.
  intros ST. induction h as [|o h IH]; intros w rest cl l w' W J N H; [reflexivity|].
  apply run_cons in H. destruct H as (a & l1 & w1 & A & B & ->).
  assert (X := ST _ _ _ _ _ _ W J (N o (or_introl eq_refl)) A). unfold rnext in X.
  assert (W1 := wf_step _ _ _ _ _ W A). cbn [answers_in view_in].
  destruct (on_in k o) as [x|].
  - destruct X as (a0 & rest' & cl' & -> & E & J'). rewrite E. cbn [map]. f_equal.
    apply (IH w1 rest' cl' l1 w' W1 J' (fun o' I => N o' (or_intror I)) B).
  - apply (IH w1 rest cl l1 w' W1 X (fun o' I => N o' (or_intror I)) B).
Qed.
Lemma on_in_target k o x : on_in k o = Some x -> target o = Some k.
Proof.
  destruct o; cbn [on_in target]; try discriminate;
  repeat match goal with
  | a : option arg |- _ => destruct a as [[]|]; try discriminate
  | a : arg |- _ => destruct a; try discriminate
  end; cbn; match goal with |- context [Nat.eqb ?j k] => destruct (Nat.eqb_spec j k) end; intros; congruence.
Qed.
Lemma target_dec o k : target o = Some k \/ target o <> Some k.
Proof. destruct (target o) as [t|]; [destruct (Nat.eq_dec t k); [left|right]|right]; congruence. Qed.
Lemma stream_closed rest x r : stream rest true (x :: r) =
  match x with OpRead | OpPeek => AEof | OpReady => ABool false | OpCloseIn => ANone end :: stream rest true r.
Proof. destruct x; reflexivity. Qed.

(** ** Closed ports: any operation on one answers at once and changes nothing *)
Lemma closed_step c w k p o a w' : nth_error (w_ports w) k = Some p -> pt_closed p = true -> pt_input p = true ->
  (forall pv m, pt_kind p <> KSoft pv m) ->
  target o = Some k -> step c w o = Ok (a, w') -> w' = tick w /\
  forall x, on_in k o = Some x -> a = as_ans match x with OpRead | OpPeek => AEof | OpReady => ABool false | OpCloseIn => ANone end.
Proof.
  intros P C I NS T H. unfold step in H.
  assert (G : get_port (tick w) (APort k) = Some (k, p)) by (cbn [get_port tick w_ports]; now rewrite P).
  assert (KS : forall b, match pt_kind p with KSoft _ m => soft_has b m | _ => pt_input p end = true).
  { intros b. destruct (pt_kind p) eqn:K; auto. exfalso. eapply NS; eauto. }
  assert (KN : forall b, match pt_kind p with KSoft _ m => soft_has b m | _ => negb (pt_input p) end = false).
  { intros b. destruct (pt_kind p) eqn:K; auto; try (now rewrite I). exfalso. eapply NS; eauto. }
  destruct o; cbn [target] in T; try discriminate T;
    repeat match goal with
    | a : option arg |- _ => destruct a as [[]|]; try discriminate T
    | a : arg |- _ => destruct a; try discriminate T
    end; injection T as T; subst; cbn [prim] in H.
  - unfold close_in in H. rewrite G, I in H. unfold close_port in H. rewrite C in H. inversion H; subst. split; auto.
    intros x. cbn [on_in]. rewrite Nat.eqb_refl. now intros [= <-].
  - unfold close_out in H. rewrite G, I in H. inversion H; subst. split; auto. discriminate.
  - unfold get_string in H. rewrite G in H. split; [|discriminate]. destruct (pt_kind p); inversion H; auto.
  - unfold prim_read in H. cbn [opt_arg] in H. rewrite G in H. cbv zeta in H. rewrite KS in H. unfold read_from in H. rewrite C in H.
    inversion H; subst. split; auto. intros x. cbn [on_in]. rewrite Nat.eqb_refl. now intros [= <-].
  - unfold prim_peek in H. cbn [opt_arg] in H. rewrite G, I in H. unfold peek_from in H. rewrite C in H. cbn [bind] in H.
    inversion H; subst. split; auto. intros x. cbn [on_in]. rewrite Nat.eqb_refl. now intros [= <-].
  - unfold prim_ready in H. cbn [opt_arg] in H. rewrite G, I, C in H.
    inversion H; subst. split; auto. intros x. cbn [on_in]. rewrite Nat.eqb_refl. now intros [= <-].
  - unfold prim_write_char in H. cbn [opt_arg] in H. rewrite G in H. cbv zeta in H. rewrite KN in H. split; [|discriminate].
    destruct ch; inversion H; auto.
  - unfold prim_print in H. cbn [opt_arg] in H. rewrite G, I in H. inversion H; subst. split; auto. discriminate.
  - unfold prim_print in H. cbn [opt_arg] in H. rewrite G, I in H. inversion H; subst. split; auto. discriminate.
  - unfold prim_force in H. cbn [opt_arg] in H. rewrite G, I in H. inversion H; subst. split; auto. discriminate.
Qed.

(** ** File readers *)
Record reader (k i : nat) (p : fpath) (D : list Z) (w : world) (rest : list Z) : Prop := {
  rd_port : nth_error (w_ports w) k = Some (mkPort (KFileIn (Some i)) true false);
  rd_file : exists off buf eof, nth_error (w_handles w) i = Some (HIn (mkHin p off buf eof)) /\
     buf ++ skipn off D = rest /\ (eof = true -> skipn off D = []);
  rd_cont : w_files w p = Some D;
  rd_none : no_writer w p }.
Definition rstate (k : nat) (p : fpath) (D : list Z) (w : world) (rest : list Z) (cl : bool) : Prop :=
  if cl then nth_error (w_ports w) k = Some (mkPort (KFileIn None) true true)
  else exists i, reader k i p D w rest.
Lemma skipn_add {A} (l : list A) n m : skipn n (skipn m l) = skipn (m + n) l.
Proof. revert l. induction m as [|m IH]; intros l; cbn; auto. destruct l; cbn; auto. now rewrite skipn_nil. Qed.
Lemma skipn_got {A} (l : list A) off n : skipn (off + length (firstn (S n) (skipn off l))) l = skipn (S n) (skipn off l).
Proof.
  rewrite skipn_add. set (m := skipn off l). assert (E : l = firstn off l ++ m) by (symmetry; apply firstn_skipn).
  rewrite firstn_length. destruct (Nat.le_gt_cases (S n) (length m)) as [L|L].
  - now rewrite Nat.min_l by lia.
  - rewrite Nat.min_r by lia. subst m. rewrite skipn_length in *. rewrite !skipn_all2; auto; lia.
Qed.
Lemma set_handle_reader k i p D w rest off buf eof : reader k i p D w rest ->
  (eof = true -> skipn off D = []) -> reader k i p D (set_handle w i (HIn (mkHin p off buf eof))) (buf ++ skipn off D).
Proof.
  intros [A (o0 & b0 & e0 & B & _) C N] E. constructor; cbn [set_handle w_ports w_files]; auto.
  - exists off, buf, eof. split; auto. cbn [set_handle w_handles]. apply set_nth_same. eapply nth_lt; eauto.
  - intros j o Q. cbn [set_handle w_handles] in Q. destruct (Nat.eq_dec j i) as [-> |NE].
    + rewrite set_nth_same in Q by (eapply nth_lt; eauto). discriminate Q.
    + rewrite set_nth_other in Q by auto. eauto.
Qed.
Lemma fgetc_reader c k i p D w rest o w' : reader k i p D w rest -> fgetc c w i = Ok (o, w') ->
  match rest with [] => o = None /\ reader k i p D w' [] | b :: r => o = Some b /\ reader k i p D w' r end.
Proof.
  intros R H. assert (R0 := R). destruct R as [A (off & buf & eof & B & E & F) C N].
  unfold fgetc in H. rewrite B in H. cbn [hi_buf hi_eof hi_path hi_off] in H. destruct buf as [|b buf].
  - cbn [app] in E. destruct eof.
    + rewrite (F eq_refl) in E. inversion H; subst. auto.
    + unfold content in H. rewrite C in H. cbv zeta in H. rewrite E in H.
      set (n := c_more c (w_tick w) p) in *. clearbody n.
      destruct rest as [|b r].
      * cbn [firstn] in H. inversion H; subst o w'. split; auto.
        apply (set_handle_reader k i p D w [] off [] true) in R0; auto. now rewrite E in R0.
      * cbn [firstn] in H. inversion H; subst o w'. split; auto.
        apply (set_handle_reader k i p D w (b :: r) (off + S (length (firstn n r))) (firstn n r) false) in R0; [|discriminate].
        assert (X : skipn (off + S (length (firstn n r))) D = skipn n r).
        { pose proof (skipn_got D off n) as Q. rewrite E in Q. cbn [firstn length skipn] in Q. exact Q. }
        rewrite X, firstn_skipn in R0. exact R0.
  - inversion H; subst. cbn [app]. split; auto. apply (set_handle_reader k i p D w _ off buf eof) in R0; auto.
Qed.
Lemma ungetc_reader k i p D w rest b w' : reader k i p D w rest -> ungetc w i b = Ok w' -> reader k i p D w' (b :: rest).
Proof.
  intros R H. assert (R0 := R). destruct R as [A (off & buf & eof & B & E & F) C N].
  unfold ungetc in H. rewrite B in H. cbn [hi_buf hi_eof hi_path hi_off] in H. inversion H; subst.
  change (b :: buf ++ skipn off D) with ((b :: buf) ++ skipn off D). eapply set_handle_reader; eauto. discriminate.
Qed.
Lemma frame_reader k i p D w w' t g po rest : frame w w' t g po -> po <> Some p -> t <> Some k -> g <> Some i ->
  reader k i p D w rest -> reader k i p D w' rest.
Proof.
  intros F O T G [A (off & buf & eof & B & E & X) C N]. constructor.
  - eapply f_keep; eauto.
  - exists off, buf, eof. split; auto. rewrite (f_hkeep _ _ _ _ _ F); auto. eapply nth_lt; eauto.
  - rewrite (frame_content _ _ _ _ _ _ F O N). auto.
  - eapply frame_no_writer; eauto.
Qed.
Lemma tick_reader k i p D w rest : reader k i p D w rest -> reader k i p D (tick w) rest.
Proof. intros []; constructor; auto. Qed.
Lemma rstate_step c k p D w rest cl o a w' : wf w -> rstate k p D w rest cl -> opened o <> Some p ->
  step c w o = Ok (a, w') -> rnext (rstate k p D) k w' rest cl o a.
Proof.
  intros W J O H. assert (F := step_frame _ _ _ _ _ H). unfold rnext.
  destruct (target_dec o k) as [T|T].
  2: { assert (ON : on_in k o = None) by (destruct (on_in k o) eqn:E; auto; apply on_in_target in E; contradiction).
       rewrite ON. destruct cl; cbn [rstate] in *.
       - eapply f_keep; eauto.
       - destruct J as [i J]. exists i. eapply frame_reader; eauto. intros E.
         destruct J as [P _ _ _]. apply (handle_of_target w o k _ i W P eq_refl) in E. destruct E as [E|[E ->]]; [contradiction|].
         pose proof (wf_two_out _ W _ P) as Q. discriminate Q. }
  destruct cl; cbn [rstate] in J.
  { destruct (closed_step c w k _ o a w' J eq_refl eq_refl (fun _ _ E => ltac:(discriminate E)) T H) as [-> A].
    destruct (on_in k o) as [x|]; [|exact J]. rewrite (A x eq_refl).
    eexists _, rest, true. split; [reflexivity|]. split; [apply stream_closed|exact J]. }
  destruct J as [i J]. assert (P := rd_port _ _ _ _ _ _ J). apply tick_reader in J. unfold step in H.
  assert (G : get_port (tick w) (APort k) = Some (k, mkPort (KFileIn (Some i)) true false)).
  { cbn [get_port tick w_ports]. now rewrite P. }
  assert (NOP : w' = tick w -> rstate k p D w' rest false) by (intros ->; exists i; exact J).
  destruct o; cbn [target] in T; try discriminate T;
    repeat match goal with
    | a : option arg |- _ => destruct a as [[]|]; try discriminate T
    | a : arg |- _ => destruct a; try discriminate T
    end; injection T as T; subst; cbn [prim] in H; cbn [on_in]; rewrite ?Nat.eqb_refl.
  - unfold close_in in H. rewrite G in H. cbn [pt_input] in H. unfold close_port in H. cbn [pt_closed pt_kind pt_input] in H.
    destruct (fclose (tick w) i) as [w1| | | |] eqn:C; cbn [bind] in H; try discriminate H. inversion H; subst.
    exists ANone, rest, true. split; [reflexivity|]. split; [reflexivity|]. cbn [rstate set_port w_ports]. apply set_nth_same.
    rewrite (fclose_ports _ _ _ C). eapply nth_lt; eauto.
  - unfold close_out in H. rewrite G in H. cbn [pt_input] in H. inversion H; subst. now apply NOP.
  - unfold get_string in H. rewrite G in H. cbn [pt_kind] in H. inversion H; subst. now apply NOP.
  - unfold prim_read in H. cbn [opt_arg] in H. rewrite G in H. cbv zeta in H. cbn [pt_kind pt_input] in H.
    unfold read_from in H. cbn [pt_closed pt_kind] in H.
    destruct (fgetc c (tick w) i) as [[o w1]| | | |] eqn:C; cbn [bind] in H; try discriminate H. inversion H; subst.
    apply (fgetc_reader c k i p D) with (rest := rest) in C; auto. destruct rest as [|b r]; destruct C as [-> C].
    + exists AEof, [], false. split; [reflexivity|]. split; [reflexivity|]. exists i. exact C.
    + exists (AChar b), r, false. split; [reflexivity|]. split; [reflexivity|]. exists i. exact C.
  - unfold prim_peek in H. cbn [opt_arg] in H. rewrite G in H. cbn [pt_kind pt_input] in H.
    unfold peek_from in H. cbn [pt_closed pt_kind] in H.
    destruct (fgetc c (tick w) i) as [[o w1]| | | |] eqn:C; cbn [bind] in H; try discriminate H.
    apply (fgetc_reader c k i p D) with (rest := rest) in C; auto. destruct rest as [|b r]; destruct C as [-> C].
    + cbn [bind] in H. inversion H; subst. exists AEof, [], false. split; [reflexivity|]. split; [reflexivity|]. exists i. exact C.
    + destruct (ungetc w1 i b) as [w2| | | |] eqn:U; cbn [bind] in H; try discriminate H. inversion H; subst.
      eapply ungetc_reader in U; eauto. exists (AChar b), (b :: r), false. split; [reflexivity|]. split; [reflexivity|]. exists i. exact U.
  - unfold prim_ready in H. cbn [opt_arg] in H. rewrite G in H. cbn [pt_kind pt_input pt_closed] in H.
    unfold peek_from in H. cbn [pt_closed pt_kind] in H.
    destruct (fgetc c (tick w) i) as [[o w1]| | | |] eqn:C; cbn [bind] in H; try discriminate H.
    apply (fgetc_reader c k i p D) with (rest := rest) in C; auto. destruct rest as [|b r]; destruct C as [-> C].
    + cbn [bind] in H. inversion H; subst. exists (ABool false), [], false. split; [reflexivity|]. split; [reflexivity|]. exists i. exact C.
    + destruct (ungetc w1 i b) as [w2| | | |] eqn:U; cbn [bind] in H; try discriminate H. inversion H; subst.
      eapply ungetc_reader in U; eauto. exists (ABool true), (b :: r), false. split; [reflexivity|]. split; [reflexivity|]. exists i. exact U.
  - unfold prim_write_char in H. cbn [opt_arg] in H. rewrite G in H. cbv zeta in H. cbn [pt_kind pt_input negb] in H.
    destruct ch; inversion H; subst; now apply NOP.
  - unfold prim_print in H. cbn [opt_arg] in H. rewrite G in H. cbn [pt_input] in H. inversion H; subst. now apply NOP.
  - unfold prim_print in H. cbn [opt_arg] in H. rewrite G in H. cbn [pt_input] in H. inversion H; subst. now apply NOP.
  - unfold prim_force in H. cbn [opt_arg] in H. rewrite G in H. cbn [pt_input] in H. inversion H; subst. now apply NOP.
Qed.

(** ** String readers *)
Definition sstate (k : nat) (data : list Z) (w : world) (rest : list Z) (cl : bool) : Prop :=
  exists n q, nth_error (w_ports w) k = Some (mkPort (KStrIn q) true cl) /\ ip_ok data n cl q /\ skipn n data = rest.
Lemma stream_expected data n cl x r : stream (skipn n data) cl (x :: r) =
  expected data n cl x :: stream (skipn (match x with OpRead => if cl then n else S n | _ => n end) data) (cl || closes x) r.
Proof.
  assert (HN : forall k, nth_error data k = hd_error (skipn k data)).
  { clear. induction data as [|c l IH]; intros [|k]; auto. cbn. apply IH. }
  assert (SK : forall k c s, skipn k data = c :: s -> skipn (S k) data = s).
  { clear. induction data as [|d l IH]; intros [|k] c s E; cbn in E |- *; try congruence. now apply IH in E. }
  assert (SN : forall k, skipn k data = [] -> skipn (S k) data = []).
  { clear. induction data as [|d l IH]; intros [|k] E; cbn in E |- *; try congruence; auto. apply IH in E. exact E. }
  destruct x; cbn [stream expected closes]; rewrite ?orb_false_r, ?orb_true_r, ?HN.
  - destruct cl; [reflexivity|]. destruct (skipn n data) as [|c s] eqn:Q.
    + now rewrite (SN n Q).
    + now rewrite (SK n c s Q).
  - destruct cl; [reflexivity|]. now destruct (skipn n data).
  - destruct cl; [reflexivity|]. now destruct (skipn n data).
  - reflexivity.
Qed.
Lemma sstate_step c k data w rest cl o a w' : (Z.of_nat (length data) <= int_max)%Z -> wf w -> sstate k data w rest cl ->
  step c w o = Ok (a, w') -> rnext (sstate k data) k w' rest cl o a.
Proof.
  intros M W J H. assert (F := step_frame _ _ _ _ _ H). unfold rnext.
  destruct J as (n & q & P & I & E).
  destruct (target_dec o k) as [T|T].
  2: { assert (ON : on_in k o = None) by (destruct (on_in k o) eqn:X; auto; apply on_in_target in X; contradiction).
       rewrite ON. exists n, q. split; auto. eapply f_keep; eauto. }
  assert (IC : ip_closed q = cl) by apply I.
  unfold step in H.
  assert (G : get_port (tick w) (APort k) = Some (k, mkPort (KStrIn q) true cl)).
  { cbn [get_port tick w_ports]. now rewrite P. }
  assert (NOP : w' = tick w -> sstate k data w' rest cl) by (intros ->; exists n, q; auto).
  (* what iport_step says is what happens *)
  assert (KEY : forall x a0 q', iport_step q x = Ok (a0, q') -> a = as_ans a0 ->
     (w' = set_port (tick w) k (mkPort (KStrIn q') true (cl || closes x)) \/ (w' = tick w /\ q' = q /\ (cl || closes x)%bool = cl)) ->
     exists a0 rest' cl', a = as_ans a0 /\ (forall r, stream rest cl (x :: r) = a0 :: stream rest' cl' r) /\ sstate k data w' rest' cl').
  { intros x a0 q' SX A B. destruct (istep_ok data n cl q x M I) as (q2 & S2 & I2). rewrite SX in S2. inversion S2; subst a0 q2.
    eexists _, _, _. split; [exact A|]. split; [intros r; rewrite <- E; apply stream_expected|].
    exists (match x with OpRead => if cl then n else S n | _ => n end), q'. split; [|auto].
    destruct B as [-> |(-> & -> & B)].
    - cbn [set_port w_ports]. apply set_nth_same. eapply nth_lt. exact P.
    - rewrite B. exact P. }
  destruct o; cbn [target] in T; try discriminate T;
    repeat match goal with
    | a : option arg |- _ => destruct a as [[]|]; try discriminate T
    | a : arg |- _ => destruct a; try discriminate T
    end; injection T as T; subst k0 || subst; cbn [prim] in H; cbn [on_in]; rewrite ?Nat.eqb_refl.
  - unfold close_in in H. rewrite G in H. cbn [pt_input] in H. unfold close_port in H. cbn [pt_closed pt_kind pt_input] in H.
    destruct cl; inversion H; subst a w'.
    + apply (KEY OpCloseIn ANone q); [|reflexivity|auto]. cbn [iport_step]. destruct q as [d0 p0 l0 c0]. cbn in IC |- *. now rewrite IC.
    + eapply (KEY OpCloseIn ANone); [reflexivity|reflexivity|auto].
  - unfold close_out in H. rewrite G in H. cbn [pt_input] in H. inversion H; subst. now apply NOP.
  - unfold get_string in H. rewrite G in H. cbn [pt_kind] in H. inversion H; subst. now apply NOP.
  - unfold prim_read in H. cbn [opt_arg] in H. rewrite G in H. cbv zeta in H. cbn [pt_kind pt_input] in H.
    unfold read_from in H. cbn [pt_closed pt_kind pt_input] in H. destruct cl.
    + inversion H; subst a w'. apply (KEY OpRead AEof q); [|reflexivity|auto]. cbn [iport_step]. unfold read_char_port. now rewrite IC.
    + destruct (read_char_port q) as [[o q']| | | |] eqn:C; cbn [bind] in H; try discriminate H. inversion H; subst a w'.
      apply (KEY OpRead (ans_of o) q'); [cbn [iport_step]; now rewrite C|destruct o; reflexivity|auto].
  - unfold prim_peek in H. cbn [opt_arg] in H. rewrite G in H. cbn [pt_kind pt_input] in H.
    unfold peek_from in H. cbn [pt_closed pt_kind] in H. destruct cl.
    + cbn [bind] in H. inversion H; subst a w'. apply (KEY OpPeek AEof q); [|reflexivity|auto]. cbn [iport_step]. unfold peek_char_port. now rewrite IC.
    + destruct (peek_char_port q) as [o| | | |] eqn:C; cbn [bind] in H; try discriminate H. inversion H; subst a w'.
      apply (KEY OpPeek (ans_of o) q); [cbn [iport_step]; now rewrite C|destruct o; reflexivity|auto].
  - unfold prim_ready in H. cbn [opt_arg] in H. rewrite G in H. cbn [pt_kind pt_input pt_closed] in H. destruct cl.
    + inversion H; subst a w'. apply (KEY OpReady (ABool false) q); [|reflexivity|auto]. cbn [iport_step]. now rewrite IC.
    + inversion H; subst a w'. apply (KEY OpReady (ABool (ip_pos q <? ip_len q)%Z) q); [|reflexivity|auto]. cbn [iport_step]. now rewrite IC.
  - unfold prim_write_char in H. cbn [opt_arg] in H. rewrite G in H. cbv zeta in H. cbn [pt_kind pt_input negb] in H.
    destruct ch; inversion H; subst; now apply NOP.
  - unfold prim_print in H. cbn [opt_arg] in H. rewrite G in H. cbn [pt_input] in H. inversion H; subst. now apply NOP.
  - unfold prim_print in H. cbn [opt_arg] in H. rewrite G in H. cbn [pt_input] in H. inversion H; subst. now apply NOP.
  - unfold prim_force in H. cbn [opt_arg] in H. rewrite G in H. cbn [pt_input] in H. inversion H; subst. now apply NOP.
Qed.

(** ** String writers: the port's buffer is what the history of this port makes it *)
Definition ostate (k : nat) (w : world) (q : oport) : Prop :=
  nth_error (w_ports w) k = Some (mkPort (KStrOut q) false (op_closed q)).
Lemma ostate_step c k w q o a w' : ostate k w q -> step c w o = Ok (a, w') ->
  (on_out k o = None -> ostate k w' q) /\
  (forall x, on_out k o = Some x -> exists q', oport_step q x = Ok q' /\ ostate k w' q').
Proof.
  intros P H. assert (F := step_frame _ _ _ _ _ H). unfold ostate in *.
  destruct (target_dec o k) as [T|T].
  2: { assert (ON : on_out k o = None) by (destruct (on_out k o) eqn:X; auto; apply on_out_target in X; contradiction).
       rewrite ON. split; [intros _; eapply f_keep; eauto|discriminate]. }
  unfold step in H.
  assert (G : get_port (tick w) (APort k) = Some (k, mkPort (KStrOut q) false (op_closed q))).
  { cbn [get_port tick w_ports]. now rewrite P. }
  assert (PL := nth_lt _ _ _ P).
  destruct o; cbn [target] in T; try discriminate T;
    repeat match goal with
    | a : option arg |- _ => destruct a as [[]|]; try discriminate T
    | a : arg |- _ => destruct a; try discriminate T
    end; injection T as T; subst k0; cbn [prim] in H; cbn [on_out]; rewrite ?Nat.eqb_refl; (split; [try discriminate|try discriminate]).
  - unfold close_in in H. rewrite G in H. cbn [pt_input] in H. inversion H; subst. auto.
  - intros x [= <-]. unfold close_out in H. rewrite G in H. cbn [pt_input] in H. unfold close_port in H. cbn [pt_closed pt_kind pt_input] in H.
    eexists. split; [reflexivity|]. cbn [op_closed]. destruct (op_closed q) eqn:C; inversion H; subst.
    + cbn [tick w_ports]. rewrite P. destruct q as [b l e cc]. cbn in C |- *. now rewrite C.
    + cbn [set_port w_ports]. now apply set_nth_same.
  - unfold get_string in H. rewrite G in H. cbn [pt_kind] in H. inversion H; subst. auto.
  - unfold prim_read in H. cbn [opt_arg] in H. rewrite G in H. cbv zeta in H. cbn [pt_kind pt_input] in H. inversion H; subst. auto.
  - unfold prim_peek in H. cbn [opt_arg] in H. rewrite G in H. cbn [pt_kind pt_input] in H. inversion H; subst. auto.
  - unfold prim_ready in H. cbn [opt_arg] in H. rewrite G in H. cbn [pt_kind pt_input] in H. inversion H; subst. auto.
  - destruct ch as [b|]; [discriminate|]. intros _. inversion H; subst. auto.
  - destruct ch as [b|]; [|discriminate]. intros x [= <-]. unfold prim_write_char in H. cbn [opt_arg] in H. rewrite G in H. cbv zeta in H.
    cbn [pt_kind pt_input negb] in H. unfold write_char_to in H. cbn [pt_closed pt_kind pt_input] in H. cbn [oport_step].
    destruct (op_closed q) eqn:C.
    + inversion H; subst. exists q. unfold write_char_port. rewrite C. auto.
    + destruct (write_char_port q b) as [q'| | | |] eqn:X; cbn [bind] in H; try discriminate H. inversion H; subst.
      exists q'. split; auto. apply wchar_closed in X. rewrite X, C. cbn [set_port w_ports]. now apply set_nth_same.
  - intros x [= <-]. unfold prim_print in H. cbn [opt_arg] in H. rewrite G in H. 
    cbn [pt_kind pt_input negb] in H. unfold print_to in H. cbn [pt_closed pt_kind pt_input] in H. 
    destruct (op_closed q) eqn:C.
    + inversion H; subst. exists q. cbn [oport_step]. unfold write_text_port. rewrite C. auto.
    + destruct (oport_step q (OpText text)) as [q'| | | |] eqn:X; cbn [bind] in H; try discriminate H. inversion H; subst.
      exists q'. split; auto. apply ostep_closed in X; [|discriminate]. rewrite X, C. cbn [set_port w_ports]. now apply set_nth_same.
  - intros x [= <-]. unfold prim_print in H. cbn [opt_arg] in H. rewrite G in H. 
    cbn [pt_kind pt_input negb] in H. unfold print_to in H. cbn [pt_closed pt_kind pt_input] in H. 
    destruct (op_closed q) eqn:C.
    + inversion H; subst. exists q. cbn [oport_step]. unfold write_char_port. rewrite C. auto.
    + destruct (oport_step q OpNewline) as [q'| | | |] eqn:X; cbn [bind] in H; try discriminate H. inversion H; subst.
      exists q'. split; auto. apply ostep_closed in X; [|discriminate]. rewrite X, C. cbn [set_port w_ports]. now apply set_nth_same.
  - unfold prim_force in H. cbn [opt_arg] in H. rewrite G in H. cbn [pt_input] in H. unfold flush_port in H. cbn [pt_kind pt_closed] in H.
    destruct (op_closed q); inversion H; subst; auto.
Qed.
Lemma ostate_run c k : forall h w q l w', ostate k w q -> run c w h = Ok (l, w') ->
  exists q', oport_run q (view_out k h) = Ok q' /\ ostate k w' q'.
Proof.
  induction h as [|o h IH]; intros w q l w' J H.
  - inversion H; subst. exists q. auto.
  - apply run_cons in H. destruct H as (a & l1 & w1 & A & B & ->).
    destruct (ostate_step _ _ _ _ _ _ _ J A) as [X Y]. cbn [view_out]. destruct (on_out k o) as [x|].
    + destruct (Y x eq_refl) as (q1 & E & J1). cbn [oport_run]. rewrite E. cbn [bind]. exact (IH w1 q1 l1 w' J1 B).
    + exact (IH w1 q l1 w' (X eq_refl) B).
Qed.
