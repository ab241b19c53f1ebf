(** C35-C37: string ports.  Vocabulary: PortSpec.  A string port is created by
    [open_input_string] / [open_output_string]; [iport_run]/[oport_run] perform a
    history of primitive calls on it; UB is any access outside the port's
    allocations or C int overflow. *)
From Coq Require Import Lia String.
From Verif Require Import Base NumModel StringModel ParseModel PrintModel ParseSpec ParseProofs ParseProofs2 ParseProperties PortModel PortSpec PortProofs.
Local Open Scope list_scope.

(** C35 *)
(* C strings longer than INT_MAX cannot be built: String lengths are ints *)
Theorem c35_byte_stream : forall data hist, Z.of_nat (length data) <= int_max ->
  exists p, iport_run (open_input_string data) hist = Ok (stream data false hist, p).
Proof.
  intros data hist M.
  assert (G : forall ops k cl p, ip_ok data k cl p -> exists p', iport_run p ops = Ok (stream (skipn k data) cl ops, p')).
  { assert (HN : forall k, nth_error data k = hd_error (skipn k data)).
    { clear. induction data as [|c l IH]; intros [|k]; auto. cbn. apply IH. }
    assert (SK : forall k c s, skipn k data = c :: s -> skipn (S k) data = s).
    { clear. induction data as [|d l IH]; intros [|k] c s E; cbn in E |- *; try congruence. now apply IH in E. }
    assert (SN : forall k, skipn k data = [] -> skipn (S k) data = []).
    { clear. induction data as [|d l IH]; intros [|k] E; cbn in E |- *; try congruence; auto. apply IH in E. exact E. }
    induction ops as [|op ops IH]; intros k cl p I; cbn [iport_run]; [exists p; reflexivity|].
    destruct (istep_ok data k cl p op M I) as (p1 & E & I1). rewrite E. cbn [bind].
    destruct (IH _ _ _ I1) as (p' & E2). rewrite E2. cbn [bind]. exists p'. do 2 f_equal.
    destruct op; cbn [stream expected closes]; rewrite ?orb_false_r, ?orb_true_r, ?HN.
    - destruct cl; [reflexivity|]. destruct (skipn k data) as [|c s] eqn:Q.
      + rewrite (SN k Q). reflexivity.
      + now rewrite (SK k c s Q).
    - destruct cl; [reflexivity|]. now destruct (skipn k data).
    - destruct cl; [reflexivity|]. now destruct (skipn k data).
    - reflexivity. }
  apply (G hist 0%nat false). unfold ip_ok, open_input_string. cbn. repeat split; auto.
Qed.
Print Assumptions c35_byte_stream.
(* so after n reads on an open port, read-char and peek-char answer byte n *)
Theorem c35_nth : forall data hist op, Z.of_nat (length data) <= int_max -> ~ closed_in hist ->
  op = OpRead \/ op = OpPeek ->
  exists l p, iport_run (open_input_string data) (hist ++ [op]) =
    Ok (l ++ [match nth_error data (reads hist) with Some c => AChar c | None => AEof end], p).
Proof.
  intros data hist op M NC O. destruct (c35_byte_stream data (hist ++ [op]) M) as (p & E). rewrite E.
  assert (G : forall h s, ~ closed_in h -> exists l, stream s false (h ++ [op]) =
     l ++ [match nth_error s (reads h) with Some c => AChar c | None => AEof end]).
  { clear - O. induction h as [|o h IH]; intros s N.
    - exists []. destruct O as [-> | ->]; cbn; destruct s; reflexivity.
    - assert (N' : ~ closed_in h) by (intros Q; apply N; now right).
      destruct o; cbn [app stream reads].
      + destruct s as [|c s].
        * destruct (IH [] N') as (l & E). rewrite E. exists (AEof :: l). cbn. destruct (reads h); reflexivity.
        * destruct (IH s N') as (l & E). rewrite E. now exists (AChar c :: l).
      + destruct (IH s N') as (l & E). rewrite E. eexists (_ :: l). reflexivity.
      + destruct (IH s N') as (l & E). rewrite E. eexists (_ :: l). reflexivity.
      + elim N. now left. }
  destruct (G hist data NC) as (l & Q). rewrite Q. eauto.
Qed.
Print Assumptions c35_nth.
Example c35_ex : exists p, iport_run (open_input_string (bs "ab")) [OpPeek; OpRead; OpReady; OpPeek; OpRead; OpReady; OpRead; OpPeek; OpRead] =
  Ok ([AChar 97; AChar 97; ABool true; AChar 98; AChar 98; ABool false; AEof; AEof; AEof], p).
Proof. eexists. vm_compute. reflexivity. Qed.
Example c35_ex_close : exists p, iport_run (open_input_string (bs "ab")) [OpRead; OpCloseIn; OpRead; OpPeek; OpReady] =
  Ok ([AChar 97; ANone; AEof; AEof; ABool false], p).
Proof. eexists. vm_compute. reflexivity. Qed.

(** C36 *)
(* Histories whose total output stays below 2^30 bytes (the capacity, a C int,
   doubles) and whose printed texts contain no NUL byte. *)
Theorem c36_accumulates : forall hist, nul_free hist ->
  Z.of_nat (length (written hist)) + 2 <= 2 ^ 30 ->
  exists p, oport_run open_output_string hist = Ok p /\ get_output p = written hist.
Proof.
  intros hist N L. destruct (orun_ok hist [] open_output_string) as (p & E & G); auto.
  - unfold op_ok, open_output_string. cbn [op_buf op_len op_cap op_closed]. rewrite repeat_length. repeat split; try lia.
  - left. cbn [op_cap open_output_string]. lia.
  - exists p. auto.
Qed.
Print Assumptions c36_accumulates.
(* a closed port ignores every later write, whatever its size *)
Theorem c36_closed : forall h1 h2 p, oport_run open_output_string (h1 ++ [OpCloseOut]) = Ok p ->
  exists p', oport_run open_output_string (h1 ++ OpCloseOut :: h2) = Ok p' /\ get_output p' = get_output p.
Proof.
  intros h1 h2. generalize open_output_string. induction h1 as [|o h1 IH]; intros p0 p; cbn [app oport_run].
  - cbn [oport_step bind]. intros [= <-]. now apply orun_closed.
  - destruct (oport_step p0 o) as [p1| | | |]; cbn [bind]; try discriminate. apply IH.
Qed.
Print Assumptions c36_closed.
(* write of a datum containing a NUL character: the text is cut at the NUL,
   because write_string_to_port uses strlen *)
Theorem c128_nul_truncates_refuted : forall t u, ~ In 0 t -> Z.of_nat (length t) + 2 <= 2 ^ 30 ->
  exists p, oport_run open_output_string [OpText (t ++ 0 :: u)] = Ok p /\ get_output p = t.
Proof.
  intros t u N L.
  assert (E : until_nul (t ++ 0 :: u) = until_nul t).
  { clear L. induction t as [|c t IH]; [reflexivity|]. cbn [app until_nul]. destruct (c =? 0); auto. rewrite IH; auto. intros I. apply N. now right. }
  assert (E2 : oport_run open_output_string [OpText (t ++ 0 :: u)] = oport_run open_output_string [OpText t]).
  { cbn [oport_run oport_step]. unfold write_text_port. now rewrite E. }
  rewrite E2. destruct (c36_accumulates [OpText t]) as (p & A & B).
  - intros x [[= <-]|[]]; auto.
  - cbn [written]. rewrite app_nil_r. auto.
  - exists p. split; auto. cbn [written] in B. now rewrite app_nil_r in B.
Qed.
Print Assumptions c128_nul_truncates_refuted.
(* an actual datum whose printed text has a NUL inside *)
Example c36_nul_datum : write_datum pf0 (RList (RSym (bs "a")) [RChar 0; RSym (bs "b")] None) = bs "(a #\" ++ 0 :: bs " b)".
Proof. vm_compute. reflexivity. Qed.
Example c36_ex : exists p, oport_run open_output_string
   ([OpChar 97; OpNewline; OpText (bs "bcd")] ++ repeat (OpText (bs "0123456789")) 200 ++ [OpCloseOut; OpChar 98]) = Ok p /\
   get_output p = bs "a" ++ 10 :: bs "bcd" ++ concat (repeat (bs "0123456789") 200) /\ op_cap p = 2048.
Proof. eexists. vm_compute. repeat split; reflexivity. Qed.

(** C37 *)
Definition blanks (b : list Z) : Prop := Forall (fun c => c = 32 \/ c = 9 \/ c = 10 \/ c = 13) b.
Lemma rd_skip_blanks b s : blanks b -> rd_skip false (b ++ s) = rd_skip false s.
Proof. induction 1 as [|c b H _ IH]; [reflexivity|]. cbn [app rd_skip]. destruct H as [-> |[-> |[-> | ->]]]; exact IH. Qed.
Lemma rd_skip_starts s : starts s -> rd_skip false s = s.
Proof.
  intros (N & A & B & _). destruct s as [|c r]; [reflexivity|]. unfold at0 in *. cbn in A, B. cbn [rd_skip]. rewrite A.
  destruct (Z.eqb_spec c 59); [congruence|reflexivity].
Qed.
Lemma starts_app t s : starts t -> isspace (at0 t) = false -> rd_skip false (t ++ s) = t ++ s.
Proof.
  intros (N & A & B & _) _. destruct t as [|c r]; [now elim N|]. unfold at0 in *. cbn in A, B. cbn [app rd_skip]. rewrite A.
  destruct (Z.eqb_spec c 59); [congruence|reflexivity].
Qed.
Lemma written_starts pf d : plain d -> starts (write_datum pf d).
Proof. intros P. destruct (plain_good pf d P false false [] ltac:(now left)) as (H & _). now rewrite app_nil_r in H. Qed.
Lemma read_port_of pf d b buf_rest rest : plain d -> blanks b ->
  collect (write_datum pf d ++ buf_rest) 0 0 false false = Some (write_datum pf d, rest) ->
  read_port (b ++ write_datum pf d ++ buf_rest) = Ok (Some d, rest).
Proof.
  intros P B C. unfold read_port. rewrite rd_skip_blanks by auto. pose proof (written_starts pf d P) as St.
  rewrite starts_app by (auto; apply St). pose proof (c32_round_trip pf d P) as R.
  destruct (write_datum pf d) as [|x t] eqn:W; [destruct St as (A & _); now elim A|]. cbn [app] in *. rewrite C, R. reflexivity.
Qed.
(* Lists and vectors that fit the splitter's fixed buffer: read returns the datum
   and leaves the port exactly behind it, whatever follows. *)
Theorem c37_compound : forall pf d b rest, plain d -> portable d -> compound d -> blanks b ->
  Z.of_nat (length (write_datum pf d)) <= 4095 ->
  read_port (b ++ write_datum pf d ++ rest) = Ok (Some d, rest).
Proof.
  intros pf d b rest P O C B L. apply read_port_of; auto.
  apply brackets_top; auto. now apply (split_ok pf d P O false false).
Qed.
Print Assumptions c37_compound.
(* Atoms: the separating blank is consumed too. *)
Theorem c37_atom : forall pf d b rest, plain d -> portable d -> ~ compound d -> blanks b ->
  Z.of_nat (length (write_datum pf d)) < 4095 ->
  read_port (b ++ write_datum pf d) = Ok (Some d, []) /\
  forall c, c = 32 \/ c = 9 \/ c = 10 \/ c = 13 ->
    read_port (b ++ write_datum pf d ++ c :: rest) = Ok (Some d, rest).
Proof.
  intros pf d b rest P O C B L.
  destruct (split_ok pf d P O false false) as (_ & N & _). specialize (N C). fold (write_datum pf d) in N. split.
  - rewrite <- (app_nil_r (write_datum pf d)). apply read_port_of; auto. rewrite N by lia.
    cbn [collect]. rewrite Z.geb_leb. destruct (Z.leb_spec 4095 (0 + Z.of_nat (length (write_datum pf d)))); [lia|]. cbn. now rewrite app_nil_r.
  - intros c Hc. apply read_port_of; auto. rewrite N by lia. rewrite collect_cons by lia. cbv zeta.
    destruct Hc as [-> |[-> |[-> | ->]]]; cbn; now rewrite app_nil_r.
Qed.
Print Assumptions c37_atom.
(* At the end of the text the answer is the EOF object. *)
Theorem c37_eof : forall b, blanks b -> read_port b = Ok (None, []).
Proof. intros b B. unfold read_port. rewrite <- (app_nil_r b), rd_skip_blanks by auto. reflexivity. Qed.
Print Assumptions c37_eof.
(* Longer expressions are cut at 4095 bytes: read fails on a one-symbol list of
   5002 bytes that the reader itself accepts. *)
Definition long_list : list Z := 40 :: repeat 97 5000 ++ [41].
Theorem c142_long_expression_refuted :
  read_port long_list = Err /\ exists d, parse long_list = Ok d.
Proof. split; [vm_compute; reflexivity|]. eexists. vm_compute. reflexivity. Qed.
Print Assumptions c142_long_expression_refuted.
(* Character literals of parentheses, comments containing a parenthesis, and a
   symbol directly followed by a list are misjudged by the splitter. *)
Theorem c142_splitter_refuted :
  (read_port (bs "(#\( a)") = Ok (None, []) /\ exists d, parse_expr (bs "(#\( a)") = Ok (Some d, [])) /\
  (read_port (bs "(a ; :)" ++ 10 :: bs " b)") = Err /\ exists d, parse_expr (bs "(a ; :)" ++ 10 :: bs " b)") = Ok (Some d, [])) /\
  (read_port (bs "a(b)") = Err /\ exists d, parse_expr (bs "a(b)") = Ok (Some d, bs "(b)")).
Proof. repeat split; try (eexists; vm_compute; reflexivity); vm_compute; reflexivity. Qed.
Print Assumptions c142_splitter_refuted.
Definition ex_portable : rdatum := RList (RSym (bs "f")) [RStr (bs "a)""("); RVec [RInt 1; RChar 97]; RNil] (Some (RInt 2)).
Lemma ex_portable_plain : plain ex_portable /\ portable ex_portable /\ compound ex_portable.
Proof.
  split.
  - apply pl_dotted.
    + intros [Q|[Q|[Q|Q]]]; discriminate.
    + apply pl_sym, ident_dec. vm_compute. reflexivity.
    + constructor; [apply pl_str; apply Forall_forall; intros x Hx; cbn in Hx; intuition lia|].
      constructor; [apply pl_vec; constructor; [apply pl_int; unfold i64_min, i64_max; lia|constructor; [apply pl_char; lia|constructor]]|].
      constructor; [apply pl_nil|constructor].
    + apply pl_int; unfold i64_min, i64_max; lia.
    + intros (h & r & Q). discriminate.
  - split; [|left; unfold ex_portable; eauto]. intros b O. unfold ex_portable in O.
    inversion O as [| |? ? ? H|? ? ? x I H|? ? ? H]; subst; [inversion H| |inversion H].
    cbn in I. destruct I as [<- |[<- |[<- |[]]]]; [inversion H| |inversion H].
    inversion H as [|? x I2 H2| | |]; subst. cbn in I2. destruct I2 as [<- |[<- |[]]]; [inversion H2|]. inversion H2; subst. lia.
Qed.
Example c37_ex : read_port (bs "  " ++ write_datum pf0 ex_portable ++ bs "(next)") = Ok (Some ex_portable, bs "(next)").
Proof.
  destruct ex_portable_plain as (P & O & C). apply c37_compound; auto.
  - repeat constructor.
  - vm_compute. discriminate.
Qed.
Example c37_ex_atom : read_port (bs "abc def") = Ok (Some (RSym (bs "abc")), bs "def").
Proof. vm_compute. reflexivity. Qed.
