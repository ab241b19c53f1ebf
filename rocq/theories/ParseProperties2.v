(** C75: a source text is the sequence of its data, wherever it is cut. *)
From Coq Require Import Lia String SpecFloat.
From Verif Require Import Base NumModel HeapModel StringModel ParseModel PrintModel ParseSpec ParseProofs ParseProofs2 ParseProperties
  PortModel PortSpec PortProofs PortProperties ParseLocal.
Open Scope string_scope. Open Scope Z_scope. Open Scope list_scope.

Lemma skip_idem : forall s b, skip (skip_ws b s) = skip_ws b s \/ exists k, skip_ws b s = 0 :: k.
Proof.
  induction s as [|c s IH]; intros b; cbn [skip_ws]; [left; reflexivity|].
  destruct b.
  - destruct (Z.eqb_spec c 0) as [->|]; [right; eauto|]. destruct (c =? 10); apply IH.
  - destruct (isspace c) eqn:E; [apply IH|]. destruct (c =? 59) eqn:F; [apply IH|]. left. cbn [skip_ws]. now rewrite E, F.
Qed.
Lemma skip_skip s : skip (skip s) = skip s.
Proof. destruct (skip_idem s false) as [|(k & E)]; [assumption|]. rewrite E. reflexivity. Qed.
Lemma p_expr_skip n s : p_expr n (skip s) = p_expr n s.
Proof. destruct n; [reflexivity|]. cbn [p_expr]. now rewrite skip_skip. Qed.
Lemma parse_expr_skip s : parse_expr (skip s) = parse_expr s.
Proof.
  pose proof (c31_terminates s) as F. unfold parse_expr at 2. rewrite <- p_expr_skip. apply parse_expr_any. rewrite p_expr_skip. apply F.
Qed.
Lemma skip_length : forall s b, (length (skip_ws b s) <= length s)%nat.
Proof.
  induction s as [|c s IH]; intros b; cbn [skip_ws length]; [lia|].
  destruct b; [destruct (c =? 0); cbn [length]; [lia|]; destruct (c =? 10); etransitivity; [apply IH|lia|apply IH|lia]|].
  destruct (isspace c); [etransitivity; [apply IH|lia]|]. destruct (c =? 59); [etransitivity; [apply IH|lia]|cbn [length]; lia].
Qed.
Lemma parse_expr_shorter s d r : parse_expr s = Ok (Some d, r) -> (length r < length s)%nat.
Proof. intros E. apply c31_progress in E as (p & N & ->). rewrite app_length. destruct p; [congruence|cbn [length]; lia]. Qed.
(* the bound of the loop does not matter *)
Lemma p_all_any : forall n m s, (length s < n)%nat -> (length s < m)%nat -> p_all n s = p_all m s.
Proof.
  induction n as [|n IH]; intros m s A B; [lia|]. destruct m as [|m]; [lia|]. cbn [p_all].
  destruct (at0 (skip s) =? 0); [reflexivity|]. destruct (parse_expr s) as [[[d|] r]| | | |] eqn:E; try reflexivity.
  cbn [bind]. apply parse_expr_shorter in E. pose proof (skip_length r false). rewrite (IH m (skip r)) by lia. reflexivity.
Qed.
Lemma parse_all_any n s : (length s < n)%nat -> p_all n s = parse_all s.
Proof. intros L. unfold parse_all. apply p_all_any; lia. Qed.
Lemma p_all_skip n s : p_all n (skip s) = p_all n s.
Proof. destruct n; [reflexivity|]. cbn [p_all]. now rewrite skip_skip, parse_expr_skip. Qed.
Lemma parse_all_skip s : parse_all (skip s) = parse_all s.
Proof. unfold parse_all at 2. rewrite <- p_all_skip. symmetry. apply parse_all_any. pose proof (skip_length s false). lia. Qed.
Lemma parse_all_step s : at0 (skip s) <> 0 -> parse_all s = do '(d, r) <- parse_expr s; match d with None => Err | Some d => do ds <- parse_all r; Ok (d :: ds) end.
Proof.
  intros N. unfold parse_all at 1. cbn [p_all]. rewrite (proj2 (Z.eqb_neq _ _) N).
  destruct (parse_expr s) as [[[d|] r]| | | |] eqn:E; try reflexivity; cbn [bind].
  - pose proof (parse_expr_shorter _ _ _ E). pose proof (skip_length r false). rewrite parse_all_any by lia. now rewrite parse_all_skip.
  - apply c31_end_of_text in E as (-> & _). now rewrite Nat.eqb_refl.
Qed.
Lemma parse_all_end s : at0 (skip s) = 0 -> parse_all s = Ok [].
Proof. intros E. unfold parse_all. cbn [p_all]. rewrite E. reflexivity. Qed.
Lemma at0_nil s : ~ In 0 s -> at0 s = 0 -> s = [].
Proof. destruct s as [|c s]; [reflexivity|]. unfold at0. cbn [nth]. intros N ->. exfalso. apply N. now left. Qed.
Lemma skip_suffix : forall s b, exists p, s = p ++ skip_ws b s.
Proof.
  induction s as [|c s IH]; intros b; cbn [skip_ws]; [now exists []|].
  assert (G : forall b, exists p, c :: s = p ++ skip_ws b s) by (intros b'; destruct (IH b') as (p & E); exists (c :: p); cbn [app]; congruence).
  destruct b; [destruct (c =? 0); [now exists []|]; destruct (c =? 10); apply G|].
  destruct (isspace c); [apply G|]. destruct (c =? 59); [apply G|now exists []].
Qed.

(** What the reader makes of the beginning of a text does not depend on what
    follows the next line break. *)
Theorem c75_prefix : forall s u d r, parse_expr s = Ok (Some d, r) -> parse_expr (s ++ 10 :: u) = Ok (Some d, r ++ 10 :: u).
Proof.
  intros s u d r E. unfold parse_expr in E. pose proof (proj1 (loc_all u (parse_fuel s)) s d r E) as H.
  rewrite (parse_expr_any (parse_fuel s)); [exact H|]. change (p_expr (parse_fuel s) (s ++ 10 :: u) <> Fuel). intros F. now rewrite F in H.
Qed.
Print Assumptions c75_prefix.
(** Putting two texts one after the other (on separate lines) is reading the
    first, then the second; so an error in the second is still found, and the data
    of the first are all there. *)
Lemma concat_ind : forall k s1 u l1, (length s1 < k)%nat -> ~ In 0 s1 -> parse_all s1 = Ok l1 ->
  parse_all (s1 ++ 10 :: u) = do l2 <- parse_all u; Ok (l1 ++ l2).
Proof.
  induction k as [|k IH]; intros s1 u l1 L N E; [lia|].
  destruct (Z.eq_dec (at0 (skip s1)) 0) as [Z0|Z0].
  - rewrite (parse_all_end _ Z0) in E. injection E as <-. rewrite <- parse_all_skip.
    assert (K : skip s1 = []). { apply at0_nil; [|assumption]. intros I. apply N. destruct (skip_suffix s1 false) as (p & ->). apply in_or_app. now right. }
    rewrite (skip_app0 u s1 false K), parse_all_skip. cbn [app]. destruct (parse_all u); reflexivity.
  - rewrite (parse_all_step _ Z0) in E. destruct (parse_expr s1) as [[[d|] r]| | | |] eqn:P; try discriminate. cbn [bind] in E.
    destruct (parse_all r) as [ds| | | |] eqn:R; try discriminate. cbn [bind] in E. injection E as <-.
    assert (K : skip s1 <> []). { intros K. rewrite K in Z0. now apply Z0. }
    rewrite parse_all_step. 2:{ rewrite (skip_app u s1 false K), at0_app by assumption. exact Z0. }
    rewrite (c75_prefix s1 u d r P). cbn [bind].
    pose proof (parse_expr_shorter _ _ _ P).
    rewrite (IH r u ds); [|lia| |exact R].
    + destruct (parse_all u); reflexivity.
    + intros I. apply N. apply c31_progress in P as (p & _ & ->). apply in_or_app. now right.
Qed.
Theorem c75_concat : forall s1 s2 l1, ~ In 0 s1 -> parse_all s1 = Ok l1 ->
  parse_all (s1 ++ 10 :: s2) = do l2 <- parse_all s2; Ok (l1 ++ l2).
Proof. intros s1 s2 l1 N E. apply (concat_ind (S (length s1)) s1 s2 l1); auto. Qed.
Print Assumptions c75_concat.
(** Blanks and comments around data mean nothing, to either reader. *)
Lemma isspace_blank c : blank c -> isspace c = true.
Proof. intros [-> |[-> |[-> |[-> |[-> | ->]]]]]; reflexivity. Qed.
Lemma skip_comment : forall t b, ~ In 10 t -> ~ In 0 t -> skip_ws true (t ++ 10 :: b) = skip b.
Proof.
  induction t as [|c t IH]; intros b A B; [reflexivity|]. cbn [app skip_ws].
  rewrite (proj2 (Z.eqb_neq c 0)) by (intros ->; apply B; now left). rewrite (proj2 (Z.eqb_neq c 10)) by (intros ->; apply A; now left).
  apply IH; intros I; [apply A|apply B]; now right.
Qed.
Lemma skip_filler b s : filler b -> skip (b ++ s) = skip s.
Proof.
  induction 1 as [|c b H _ IH|t b A B _ IH]; [reflexivity| |].
  - cbn [app skip_ws]. now rewrite (isspace_blank c H).
  - cbn [app skip_ws]. change (isspace 59) with false. change (59 =? 59) with true. cbv iota.
    rewrite <- app_assoc. cbn [app]. now rewrite (skip_comment t (b ++ s) A B).
Qed.
Theorem c75_leading_filler : forall b s, filler b ->
  parse_expr (b ++ s) = parse_expr s /\ parse (b ++ s) = parse s /\ parse_all (b ++ s) = parse_all s.
Proof.
  intros b s F. assert (P : parse_expr (b ++ s) = parse_expr s) by now rewrite <- parse_expr_skip, skip_filler, parse_expr_skip.
  split; [exact P|]. split; [unfold parse; now rewrite P|]. now rewrite <- parse_all_skip, skip_filler, parse_all_skip.
Qed.
Print Assumptions c75_leading_filler.
Theorem c75_trailing_filler : forall b s d, filler b -> ~ In 0 s -> parse s = Ok d -> parse (s ++ 10 :: b) = Ok d.
Proof.
  intros b s d F N E. unfold parse in *. destruct (parse_expr s) as [[[x|] r]| | | |] eqn:P; try discriminate. cbn [bind] in E.
  rewrite (c75_prefix s b x r P). cbn [bind]. destruct (at0 (skip r) =? 0) eqn:Z0; [|discriminate]. cbn [negb] in E. cbv iota in E. injection E as ->.
  apply Z.eqb_eq in Z0. assert (K : skip r = []).
  { apply at0_nil; [|assumption]. intros I. apply N. apply c31_progress in P as (p & _ & ->). apply in_or_app. right.
    destruct (skip_suffix r false) as (q & ->). apply in_or_app. now right. }
  rewrite (skip_app0 b r false K). pose proof (skip_filler b [] F) as Q. rewrite app_nil_r in Q. rewrite Q. reflexivity.
Qed.
Print Assumptions c75_trailing_filler.
(** The same for read on a port, where a comment also ends at a carriage return:
    with that read the same way, comments before a datum change nothing. *)
Lemma rd_comment : forall t b, ~ In 10 t -> ~ In 13 t -> rd_skip true (t ++ 10 :: b) = rd_skip false b.
Proof.
  induction t as [|c t IH]; intros b A B; [reflexivity|]. cbn [app rd_skip].
  rewrite (proj2 (Z.eqb_neq c 13)) by (intros ->; apply B; now left). rewrite (proj2 (Z.eqb_neq c 10)) by (intros ->; apply A; now left).
  cbn [orb]. apply IH; intros I; [apply A|apply B]; now right.
Qed.
Lemma rd_skip_filler b s : port_filler b -> rd_skip false (b ++ s) = rd_skip false s.
Proof.
  induction 1 as [|c b H _ IH|t b A B _ IH]; [reflexivity| |].
  - cbn [app rd_skip]. now rewrite (isspace_blank c H).
  - cbn [app rd_skip]. change (isspace 59) with false. change (59 =? 59) with true. cbv iota.
    rewrite <- app_assoc. cbn [app]. now rewrite (rd_comment t (b ++ s) A B).
Qed.
Theorem c75_port_filler : forall b s, port_filler b -> read_port (b ++ s) = read_port s.
Proof. intros b s F. unfold read_port. now rewrite rd_skip_filler. Qed.
Print Assumptions c75_port_filler.
(** A carriage return ends a comment for read, but not for the file reader. *)
Theorem c108_carriage_return_refuted :
  read_port (bs "; note" ++ 13 :: bs "a") = Ok (Some (RSym (bs "a")), []) /\ parse_all (bs "; note" ++ 13 :: bs "a") = Ok [].
Proof. split; vm_compute; reflexivity. Qed.
Print Assumptions c108_carriage_return_refuted.

Definition c75_src : list Z := bs "(define (f x) ; comment (" ++ 10 :: bs " (+ x 1)) 'q ; end".
Example c75_ex : exists l, parse_all c75_src = Ok l /\ length l = 2%nat /\ ~ In 0 c75_src /\
  parse_all (c75_src ++ 10 :: bs "(f . 2)") = Ok (l ++ [RList (RSym (bs "f")) [] (Some (RInt 2))]).
Proof.
  eexists. split; [vm_compute; reflexivity|]. split; [reflexivity|]. split; [|vm_compute; reflexivity].
  intros I. vm_compute in I. intuition discriminate.
Qed.
Example c75_ex_filler : filler (59 :: (bs "a(b") ++ 10 :: [32; 9]) /\ port_filler (59 :: (bs "a(b") ++ 10 :: [32; 9]).
Proof.
  split; [apply (fl_comment (bs "a(b") [32; 9])|apply (pf_comment (bs "a(b") [32; 9])];
    try (intros I; vm_compute in I; intuition discriminate).
  - apply fl_blank; [unfold blank; lia|]. apply fl_blank; [unfold blank; lia|]. constructor.
  - apply pf_blank; [unfold blank; lia|]. apply pf_blank; [unfold blank; lia|]. constructor.
Qed.
