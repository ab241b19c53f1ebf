(** C82-C84: loading files, leaving the process, messages for uncaught throws,
    handlers that do not unwind. *)
From Coq Require Import Lia String SpecFloat.
From Verif Require Import Base NumModel HeapModel StrNumModel ParseModel EnvModel EvalModel EvalMono EvalSpec EvalProofs EvalProofs2 EvalProofs3 EvalWitness ApiModel HostModel HostSpec.
From Verif Require ParseProofs2.
Local Open Scope Z_scope.
Local Open Scope list_scope.

(** ** C82 *)
Section Load.
Variable prim : list Z -> list val -> pres.
Lemma load_lim text l xs e : parse_all text = Ok l -> programs l = Some xs -> xs <> [] ->
  lim (fun n => load_with_env prim n (Some text) e) == body_run prim e xs.
Proof.
  intros P Q N. unfold load_with_env. rewrite P. destruct l as [|d l]; [cbn in Q; injection Q as <-; congruence|]. rewrite Q.
  destruct xs as [|x xs]; [congruence|]. apply eval_last_ok.
Qed.
(* loading a file is running its forms in order at top level, with the value of
   the last one: every outcome of the one is an outcome of the other *)
Theorem c82_load : forall text l xs st o,
  parse_all text = Ok l -> programs l = Some xs -> xs <> [] ->
  (outcome (fun n => load prim n (Some text)) st o <-> body_run prim g_env xs st o).
Proof. intros text l xs st o P Q N. apply (load_lim text l xs g_env P Q N st o). Qed.
(* the same for a module's file, in the module's environment *)
Theorem c82_load_env : forall text l xs e st o,
  parse_all text = Ok l -> programs l = Some xs -> xs <> [] ->
  (outcome (fun n => load_with_env prim n (Some text) e) st o <-> body_run prim e xs st o).
Proof. intros text l xs e st o P Q N. apply (load_lim text l xs e P Q N st o). Qed.
Lemma body_app e : forall a b x st st1 v o, body_run prim e a st (Ret v st1) -> body_run prim e (x :: b) st1 o -> body_run prim e (a ++ x :: b) st o.
Proof.
  induction a as [|y a IH]; intros b x st st1 v o A B; [inversion A|]. destruct a as [|z a].
  - cbn [app]. cbn [body_run] in A |- *. left. eauto.
  - change ((y :: z :: a) ++ x :: b) with (y :: z :: (a ++ x :: b)). change (body_run prim e (y :: z :: a)) with (_ <~ runs prim e y ;; body_run prim e (z :: a)) in A.
    change (body_run prim e (y :: z :: a ++ x :: b)) with (_ <~ runs prim e y ;; body_run prim e ((z :: a) ++ x :: b)).
    destruct A as [(v1 & s1 & A1 & A2)|(o1 & A1 & A2)]; [|inversion A2]. left. exists v1, s1. split; [exact A1|]. eapply IH; eauto.
Qed.
(* a form that throws ends the loading there, with the effects of the forms
   before it and none of the forms after it *)
Theorem c82_stops_at_error : forall text l a x b st st1 st2 v id key args,
  parse_all text = Ok l -> programs l = Some (a ++ x :: b) ->
  body_run prim g_env a st (Ret v st1) -> runs prim g_env x st1 (Thrown id key args st2) ->
  outcome (fun n => load prim n (Some text)) st (Thrown id key args st2).
Proof.
  intros text l a x b st st1 st2 v id key args P Q A X. apply (c82_load text l (a ++ x :: b) st _ P Q); [destruct a; discriminate|].
  eapply body_app; [exact A|]. destruct b as [|y b]; [exact X|]. right. eexists. split; [exact X|constructor].
Qed.
(* a file with a syntax error anywhere is an error, and none of its forms is
   evaluated, not even those before the error *)
Theorem c82_unreadable : forall n text st, parse_all text = Err -> load prim n (Some text) st = err st.
Proof. intros n text st P. unfold load, load_with_env. now rewrite P. Qed.
Theorem c82_missing : forall n st, load prim n None st = err st.
Proof. reflexivity. Qed.
(* REFUTED: "loading a file without forms does nothing" *)
Theorem c166_empty_refuted : forall n text st, parse_all text = Ok [] -> load prim n (Some text) st = err st.
Proof. intros n text st P. unfold load, load_with_env. now rewrite P. Qed.
(* the outcome of a load does not depend on the amount of stack *)
Theorem c82_deterministic : forall text l xs st o o',
  parse_all text = Ok l -> programs l = Some xs -> xs <> [] ->
  outcome (fun n => load prim n (Some text)) st o -> outcome (fun n => load prim n (Some text)) st o' -> o = o'.
Proof.
  intros text l xs st o o' P Q N (n & H & F) (m & H' & F').
  assert (M : monotone (fun n => load prim n (Some text))).
  { unfold load, load_with_env. rewrite P. destruct l as [|d l]; [cbn in Q; congruence|]. rewrite Q. intros i j L. apply m_last. now apply hev. }
  destruct (Nat.le_ge_cases n m) as [L|L].
  - specialize (M n m L st). destruct M as [M|M]; congruence.
  - specialize (M m n L st). destruct M as [M|M]; congruence.
Qed.
End Load.
Print Assumptions c82_load.
Print Assumptions c82_load_env.
Print Assumptions c82_stops_at_error.
Print Assumptions c82_unreadable.
Print Assumptions c82_missing.
Print Assumptions c166_empty_refuted.
Print Assumptions c82_deterministic.
Example c82_ex : exists st, load prim0 100 (Some (bs "(define x 4) ; comment
 (define (f y) (+ x y)) (f 2)")) st0 = Ret (VInt 6) st.
Proof. eexists. vm_compute. reflexivity. Qed.
Example c82_ex_empty : parse_all (bs " ; nothing here") = Ok [] /\ parse_all (bs "(define x 1) (") = Err.
Proof. split; vm_compute; reflexivity. Qed.
Example c82_ex_error : exists st1 st2, load prim0 100 (Some (bs "(define x 4) (car x) (define y 5)")) (push_catch (VBool true) st0) = Thrown 0 (sym "error") (VList [VStr []] false) st1 /\
  env_search st1 g_env (bs "x") = Some (VInt 4) /\ env_search st1 g_env (bs "y") = None /\ st2 = st1.
Proof. eexists. eexists. vm_compute. auto. Qed.

(* exit: a small integer is the status; no argument is success *)
Theorem c114_exit : forall z, 0 <= z <= 255 -> exists c, exit_code (Some (ONum z)) = Ok c /\ parent_sees c = z.
Proof.
  intros z R. exists z. cbn. unfold to_int32, parent_sees. rewrite (Z.mod_small (z + 2 ^ 31)) by lia. split; [f_equal; lia|]. apply Z.mod_small. lia.
Qed.
Print Assumptions c114_exit.
(* in general the parent sees the integer modulo 256 *)
Theorem c82_exit_int : forall z, exists c, exit_code (Some (ONum z)) = Ok c /\ parent_sees c = z mod 256.
Proof.
  intro z. eexists. split; [reflexivity|]. unfold parent_sees, to_int32.
  replace ((z + 2 ^ 31) mod 2 ^ 32 - 2 ^ 31) with (z + (- (2 ^ 24) * ((z + 2 ^ 31) / 2 ^ 32)) * 256).
  - apply Z.mod_add. lia.
  - pose proof (Z.div_mod (z + 2 ^ 31) (2 ^ 32)). lia.
Qed.
Print Assumptions c82_exit_int.
Theorem c82_exit_none : exit_code None = Ok 0. Proof. reflexivity. Qed.
Print Assumptions c82_exit_none.
(* an argument that is not an integer or a double is an error: the process goes on *)
Theorem c82_exit_error : forall o, (forall z, o <> ONum z) -> (forall d, o <> OFloat d) -> exit_code (Some o) = Err.
Proof. intros o A B. destruct o; try reflexivity; [destruct (A z eq_refl)|destruct (B f eq_refl)]. Qed.
Print Assumptions c82_exit_error.
(* a double: its integer part z, when that is an int; for the double s m e whose magnitude is m * 2^e *)
Theorem c82_exit_double : forall (neg : bool) m e z, 0 <= z ->
  z * 2 ^ Z.max 0 (- e) <= Z.pos m * 2 ^ Z.max 0 e < (z + 1) * 2 ^ Z.max 0 (- e) ->
  exit_code (Some (OFloat (S754_finite neg m e))) =
    (if neg then (if z <=? 2 ^ 31 then Ok (- z) else UB) else (if z <=? 2 ^ 31 - 1 then Ok z else UB)).
Proof.
  intros neg m e z P R. cbn [exit_code dtrunc].
  assert (E : (if 0 <=? e then Z.pos m * 2 ^ e else Z.pos m / 2 ^ (- e)) = z).
  { destruct (Z.leb_spec 0 e) as [L|L].
    - rewrite (Z.max_l 0 (- e)), (Z.max_r 0 e), Z.pow_0_r in R by lia. lia.
    - rewrite (Z.max_r 0 (- e)), (Z.max_l 0 e), Z.pow_0_r in R by lia. symmetry. apply Z.div_unique with (Z.pos m - z * 2 ^ (- e)); lia. }
  rewrite E. destruct neg.
  - destruct (Z.leb_spec z (2 ^ 31)); destruct (Z.leb_spec (- 2 ^ 31) (- z)); try lia; destruct (Z.leb_spec (- z) (2 ^ 31 - 1)); try lia; reflexivity.
  - destruct (Z.leb_spec z (2 ^ 31 - 1)); destruct (Z.leb_spec (- 2 ^ 31) z); try lia; reflexivity.
Qed.
Print Assumptions c82_exit_double.
Example c82_exit_double_ex : exit_code (Some (OFloat (S754_finite true 15 (-1)))) = Ok (-7).
Proof. rewrite (c82_exit_double true 15 (-1) 7); [reflexivity|lia|cbn; lia]. Qed.
(* REFUTED: "a status other than 0 is not success": (exit 256) is success, and so
   is every multiple of 256 *)
Theorem c166_exit_wraps_refuted : forall k, exists c, exit_code (Some (ONum (256 * k))) = Ok c /\ parent_sees c = 0.
Proof.
  intro k. destruct (c82_exit_int (256 * k)) as (c & E & P). exists c. split; [exact E|]. rewrite P, Z.mul_comm. apply Z_mod_mult.
Qed.
Print Assumptions c166_exit_wraps_refuted.
(* REFUTED: "(exit #f) and (exit 1/2) leave the process" / "(exit x) is defined for every
   number": a double whose integer part is not an int, or an infinity or NaN, is
   undefined behaviour *)
Theorem c166_exit_float_refuted : exit_code (Some (OBool false)) = Err /\ exit_code (Some (OFloat S754_nan)) = UB /\
  exit_code (Some (OFloat (S754_infinity false))) = UB /\ exit_code (Some (OFloat (d_of_Z (2 ^ 31)))) = UB.
Proof. repeat split; vm_compute; reflexivity. Qed.
Print Assumptions c166_exit_float_refuted.
Example c82_exit_ex : exit_code (Some (ONum 3)) = Ok 3 /\ parent_sees (to_int32 (-1)) = 255 /\ exit_code (Some (OFloat (d_of_Z 7))) = Ok 7.
Proof. repeat split; vm_compute; reflexivity. Qed.

(** ** C83 *)
Definition prefix (prog : option (list Z)) : list Z := (match prog with Some p => upto_nul p | None => bs "pscm" end) ++ bs ": uncaught throw to ".
Definition whole (prog : option (list Z)) (k : tkey) (a : targs) : list Z := prefix prog ++ key_text k ++ bs ": " ++ args_text a ++ [10].
Lemma put_ok t s p : Z.of_nat (length s) = Z.min p (msg_size - 1) -> 0 <= p <= msg_size ->
  exists s', put_msg t (s, p) = Ok (s', p + Z.of_nat (length t)) /\ s' = s ++ firstn (Z.to_nat (msg_size - 1 - p)) t /\
    Z.of_nat (length s') = Z.min (p + Z.of_nat (length t)) (msg_size - 1).
Proof.
  intros L P. unfold put_msg. destruct (Z.ltb_spec msg_size p); [lia|]. eexists. split; [reflexivity|]. split; [reflexivity|].
  rewrite app_length, firstn_length. unfold msg_size in *. lia.
Qed.
Lemma firstn_grow (w t : list Z) s p : s = firstn 1023 w -> Z.of_nat (length w) = p -> p <= msg_size ->
  s ++ firstn (Z.to_nat (msg_size - 1 - p)) t = firstn 1023 (w ++ t).
Proof.
  intros -> L P. rewrite firstn_app. f_equal. f_equal. unfold msg_size in *. lia.
Qed.
Lemma puts (ts : list (list Z)) : forall w s, s = firstn 1023 w -> Z.of_nat (length w) <= msg_size ->
  let f := fold_left (fun m t => do m <- m; put_msg t m) ts (Ok (s, Z.of_nat (length w))) in
  (forall u t v, ts = u ++ t :: v -> Z.of_nat (length (w ++ List.concat u)) <= msg_size) ->
  f = Ok (firstn 1023 (w ++ List.concat ts), Z.of_nat (length (w ++ List.concat ts))).
Proof.
  induction ts as [|t ts IH]; intros w s S L f H; cbn [fold_left List.concat] in *; [subst f; now rewrite app_nil_r, S|].
  subst f. cbn [bind]. unfold put_msg at 2. destruct (Z.ltb_spec msg_size (Z.of_nat (length w))); [lia|].
  rewrite (firstn_grow w t s (Z.of_nat (length w)) S eq_refl L). rewrite <- Nat2Z.inj_add, <- app_length.
  destruct ts as [|t' ts].
  - cbn [fold_left List.concat]. now rewrite app_nil_r.
  - rewrite (IH (w ++ t) _ eq_refl); [now rewrite <- app_assoc|specialize (H [t] t' ts eq_refl); cbn [List.concat] in H; now rewrite app_nil_r in H|].
    intros u t0 v E. specialize (H (t :: u) t0 v). cbn [List.concat app] in H. rewrite E in H. specialize (H eq_refl). now rewrite app_assoc in H.
Qed.
Lemma message_fold prog k a : handler_message prog k a =
  (do m <- fold_left (fun m t => do m <- m; put_msg t m) [prefix prog; key_text k; bs ": "; args_text a; [10]] (Ok ([], 0)); Ok (fst m)).
Proof.
  unfold handler_message. fold (prefix prog). cbn [fold_left bind].
  destruct (put_msg (prefix prog) ([], 0)) as [m1| | | |]; cbn [bind]; try reflexivity.
  destruct (put_msg (key_text k) m1) as [m2| | | |]; cbn [bind]; try reflexivity.
  destruct (put_msg (bs ": ") m2) as [m3| | | |]; cbn [bind]; try reflexivity.
  destruct (put_msg (args_text a) m3) as [m4| | | |]; cbn [bind]; reflexivity.
Qed.
(* the message for an uncaught throw is the program name, the key and the message
   text, cut to the 1023 bytes that fit, as long as everything but the final newline fits 1024 *)
Theorem c83_message : forall prog k a,
  Z.of_nat (length (whole prog k a)) <= 1025 ->
  handler_message prog k a = Ok (firstn 1023 (whole prog k a)).
Proof.
  intros prog k a L. rewrite message_fold. change (Ok ([], 0)) with (Ok (@nil Z, Z.of_nat (length (@nil Z)))). rewrite (puts [prefix prog; key_text k; bs ": "; args_text a; [10]] [] [] eq_refl).
  - cbn [bind fst app List.concat]. reflexivity.
  - cbn. unfold msg_size. lia.
  - intros u t v E. cbn [app]. assert (X : whole prog k a = List.concat u ++ List.concat (t :: v)).
    { rewrite <- concat_app, <- E. cbn [List.concat]. now rewrite app_nil_r. }
    rewrite X, app_length in L. assert (Y : (0 < length (List.concat (t :: v)))%nat); [|unfold msg_size; lia].
    destruct (exists_last (l := t :: v)) as (q & z & F); [discriminate|]. rewrite F, concat_app, app_length. cbn [List.concat].
    assert (Z : z = [10]).
    { rewrite F in E. assert (E' : [prefix prog; key_text k; bs ": "; args_text a] ++ [[10]] = (u ++ q) ++ [z]) by (rewrite <- app_assoc; exact E).
      apply app_inj_tail in E' as [_ E']. congruence. }
    subst z. cbn. lia.
Qed.
Print Assumptions c83_message.
(* so a message whose line fits 1023 bytes is printed in full, and the process ends
   with status 1 *)
Theorem c83_uncaught : forall k a, Z.of_nat (length (whole None k a)) <= 1023 ->
  uncaught k a = HExit (whole None k a) 1.
Proof.
  intros k a L. unfold uncaught. rewrite c83_message by lia. f_equal. apply firstn_all2. lia.
Qed.
Print Assumptions c83_uncaught.
(* REFUTED: "an uncaught throw is reported whatever its key and message": a longer
   line is undefined behaviour (a write outside the buffer on the C stack) *)
Theorem c161_long_message_refuted : forall prog k a,
  1025 < Z.of_nat (length (whole prog k a)) -> handler_message prog k a = UB.
Proof.
  intros prog k a L. unfold handler_message. fold (prefix prog).
  unfold whole in L. rewrite !app_length in L. cbn [length bs list_ascii_of_string map] in L.
  change (Z.of_nat (length (bs ": "))) with 2 in L.
  set (n1 := length (prefix prog)) in *. set (n2 := length (key_text k)) in *. set (n3 := length (args_text a)) in *.
  unfold put_msg at 1. change (msg_size <? 0) with false. cbn iota. cbn [bind]. fold n1.
  unfold put_msg at 1. unfold msg_size at 1. destruct (Z.ltb_spec 1024 (0 + Z.of_nat n1)); [reflexivity|]. cbn [bind]. fold n2.
  unfold put_msg at 1. unfold msg_size at 1. destruct (Z.ltb_spec 1024 (0 + Z.of_nat n1 + Z.of_nat n2)); [reflexivity|]. cbn [bind].
  change (Z.of_nat (length (bs ": "))) with 2. unfold put_msg at 1. unfold msg_size at 1. destruct (Z.ltb_spec 1024 (0 + Z.of_nat n1 + Z.of_nat n2 + 2)); [reflexivity|]. cbn [bind]. fold n3.
  unfold put_msg at 1. unfold msg_size at 1. destruct (Z.ltb_spec 1024 (0 + Z.of_nat n1 + Z.of_nat n2 + 2 + Z.of_nat n3)); [reflexivity|].
  exfalso. change (length (bs ": ")) with 2%nat in L. lia.
Qed.
Print Assumptions c161_long_message_refuted.
(* in particular (throw 'k "a string of 1000 bytes") *)
Theorem c161_long_string_refuted : forall s, Forall (fun c => c <> 0) s -> 998 <= Z.of_nat (length s) ->
  uncaught (KSym (bs "k")) (AStr s) = HUB.
Proof.
  intros s F L. unfold uncaught. rewrite c161_long_message_refuted; [reflexivity|].
  assert (U : upto_nul s = s) by (clear L; induction F as [|c s N F IH]; [reflexivity|]; cbn; rewrite (proj2 (Z.eqb_neq c 0) N); now rewrite IH).
  unfold whole. rewrite !app_length. cbn [args_text]. rewrite U.
  change (length (prefix None)) with 24%nat. change (length (key_text (KSym (bs "k")))) with 2%nat. change (length (bs ": ")) with 2%nat. cbn [length]. lia.
Qed.
Print Assumptions c161_long_string_refuted.
(* a host's message handler returns, except for the key quit, which ends the process
   with the given status *)
Theorem c83_by_message : forall prog q a n, Z.of_nat (length (whole prog (KSym q) a)) <= 1023 ->
  (upto_nul q <> bs "quit" -> by_message_noexit prog (KSym q) a n = HReturn (whole prog (KSym q) a)) /\
  (upto_nul q = bs "quit" -> exists c, by_message_noexit prog (KSym q) a n = HExit [] c /\ parent_sees c = match n with Some z => z mod 256 | None => 0 end).
Proof.
  intros prog q a n L. unfold by_message_noexit. split; intro Q.
  - destruct (beq (upto_nul q) (bs "quit")) eqn:B; [apply ParseProofs2.beq_iff in B; contradiction|]. rewrite c83_message by lia. f_equal. apply firstn_all2. lia.
  - rewrite Q. change (beq (bs "quit") (bs "quit")) with true. cbn iota. destruct n as [z|].
    + destruct (c82_exit_int z) as (c & E & P). injection E as <-. eauto.
    + exists 0. split; reflexivity.
Qed.
Print Assumptions c83_by_message.
Example c83_ex : uncaught (KSym (bs "oops")) (AStr (bs "bad thing")) = HExit (bs "pscm: uncaught throw to 'oops: bad thing" ++ [10]) 1 /\
  uncaught KOther ANull = HExit (bs "pscm: uncaught throw to <non-symbol>: ()" ++ [10]) 1.
Proof. split; vm_compute; reflexivity. Qed.

(** ** C84 *)
Lemma lazy_none c key : chain_ok c -> lazy_index c key = None.
Proof. induction 1; cbn; auto. Qed.
Lemma catch_innermost key l : innermost key l (catch_for l (WSym key)).
Proof.
  induction l as [|[id t] l IH]; cbn [catch_for]; [constructor|]. destruct t; cbn [w_match]; try (now constructor; auto; discriminate).
  destruct (beq n key) eqn:B; [apply ParseProofs2.beq_iff in B; subst; constructor; auto|]. constructor; auto; [discriminate|]. intro E. injection E as ->. rewrite (proj2 (ParseProofs2.beq_iff key key) eq_refl) in B. discriminate.
Qed.
(* a throw goes to the innermost matching catch whatever handlers are installed *)
Theorem c84_throw_target : forall st key, chain_ok (l_chain st) ->
  exists o, innermost key (l_catch st) o /\ throw_target st (WSym key) = match o with Some id => ToCatch id | None => ToNowhere end.
Proof.
  intros st key C. exists (catch_for (l_catch st) (WSym key)). split; [apply catch_innermost|]. unfold throw_target. now rewrite lazy_none.
Qed.
Print Assumptions c84_throw_target.
(* a body that returns: its value is the result, and the wind chain is as before *)
Theorem c84_value : forall A tag (body : lst -> lout A) st a st',
  l_top st < 100 ->
  body (mkLst (lazy_entry tag (l_top st) :: l_chain st) (l_top st + 1) (l_catch st)) = LRet a st' ->
  exists st2, with_throw_handler tag body st = LRet a st2 /\ l_chain st2 = l_chain st /\ l_catch st2 = l_catch st' /\
    (l_top st' = l_top st + 1 -> l_top st2 = l_top st).
Proof.
  intros A tag body st a st' L E. unfold with_throw_handler. destruct (Z.leb_spec 100 (l_top st)); [lia|]. rewrite E.
  eexists. split; [reflexivity|]. cbn. repeat split. lia.
Qed.
Print Assumptions c84_value.
(* REFUTED: "a throw to the handler's tag inside the body calls the handler": with
   or without the handler the throw goes to the same place, the innermost catch
   outside, or ends the process; the handler (an argument the code never calls) has no effect *)
Theorem c115_handler_not_called_refuted : forall A key st, chain_ok (l_chain st) -> l_top st < 100 ->
  let inside := with_throw_handler (WSym key) (fun s => @l_throw A (WSym key) s) st in
  let pushed := mkLst (lazy_entry (WSym key) (l_top st) :: l_chain st) (l_top st + 1) (l_catch st) in
  match @l_throw A (WSym key) st with
  | LThrow id k _ => inside = LThrow id k pushed
  | LExit _ => inside = LExit pushed
  | _ => False
  end.
Proof.
  intros A key st C L inside pushed. subst inside pushed. unfold with_throw_handler. destruct (Z.leb_spec 100 (l_top st)); [lia|].
  unfold l_throw, throw_target. cbn [l_chain l_catch]. rewrite (lazy_none (lazy_entry (WSym key) (l_top st) :: l_chain st)) by now constructor. rewrite (lazy_none (l_chain st)) by exact C.
  destruct (catch_for (l_catch st) (WSym key)); reflexivity.
Qed.
Print Assumptions c115_handler_not_called_refuted.
(* one use of a handler whose body throws to a catch outside *)
Definition use (id : nat) (key : list Z) (st : lst) : lout unit :=
  l_catching id (WSym key) (with_throw_handler (WSym key) (fun s => l_throw (WSym key) s)) (fun _ s => LRet tt s) st.
Fixpoint uses (k : nat) (key : list Z) (st : lst) : lout unit :=
  match k with O => LRet tt st | S k => match use 0 key st with LRet _ st' => uses k key st' | o => o end end.
Lemma use_leaks key st : chain_ok (l_chain st) -> l_top st < 100 ->
  use 0 key st = LRet tt (mkLst (lazy_entry (WSym key) (l_top st) :: l_chain st) (l_top st + 1) (l_catch st)).
Proof.
  intros C L. unfold use, l_catching, with_throw_handler. cbn [l_top l_chain l_catch]. destruct (Z.leb_spec 100 (l_top st)); [lia|].
  unfold l_throw, throw_target. cbn [l_chain l_catch]. rewrite lazy_none by now constructor. cbn [catch_for w_match]. rewrite (proj2 (ParseProofs2.beq_iff key key) eq_refl). reflexivity.
Qed.
(* REFUTED: "a handler can be used any number of times": every use that is left by a
   throw keeps its slot; after 100 of them every further use is refused *)
Theorem c115_leak_refuted : forall key k st, chain_ok (l_chain st) -> 0 <= l_top st -> l_top st + Z.of_nat k <= 100 ->
  exists st', uses k key st = LRet tt st' /\ l_top st' = l_top st + Z.of_nat k /\ (length (l_chain st') = length (l_chain st) + k)%nat /\ chain_ok (l_chain st') /\
    (l_top st + Z.of_nat k = 100 -> forall A tag (body : lst -> lout A), with_throw_handler tag body st' = LRefused).
Proof.
  intros key. induction k as [|k IH]; intros st C T L.
  - exists st. split; [reflexivity|]. split; [lia|]. split; [lia|]. split; [exact C|]. intros E A tag body. unfold with_throw_handler. destruct (Z.leb_spec 100 (l_top st)); [reflexivity|lia].
  - cbn [uses]. rewrite use_leaks by (auto; lia). edestruct (IH (mkLst (lazy_entry (WSym key) (l_top st) :: l_chain st) (l_top st + 1) (l_catch st))) as (st' & E & E1 & E2 & E3 & E4).
    + now constructor.
    + cbn. lia.
    + cbn. lia.
    + cbn [l_top l_chain] in *. exists st'. split; [exact E|]. split; [lia|]. split; [cbn in E2; lia|]. split; [exact E3|]. intro H. apply E4. lia.
Qed.
Print Assumptions c115_leak_refuted.
(* nesting: up to 100 handlers can be active at once when they return normally *)
Fixpoint nest {A} (k : nat) (tag : wv) (body : lst -> lout A) : lst -> lout A :=
  match k with O => body | S k => with_throw_handler tag (nest k tag body) end.
Theorem c84_nesting : forall (A : Type) (a : A) k tag st, 0 <= l_top st -> l_top st + Z.of_nat k <= 100 ->
  nest k tag (fun s => LRet a s) st = LRet a st.
Proof.
  intros A a. induction k as [|k IH]; intros tag st T L; [reflexivity|]. cbn [nest]. unfold with_throw_handler. destruct (Z.leb_spec 100 (l_top st)); [lia|].
  rewrite IH by (cbn; lia). cbn. replace (l_top st + 1 - 1) with (l_top st) by lia. destruct st; reflexivity.
Qed.
Print Assumptions c84_nesting.
Example c84_ex : chain_ok [wind_entry; lazy_entry WTrue 0] /\
  throw_target (mkLst [lazy_entry WTrue 0] 1 [(7%nat, WSym (bs "a")); (8%nat, WTrue)]) (WSym (bs "b")) = ToCatch 8 /\
  (exists st, uses 100 (bs "k") (mkLst [] 0 []) = LRet tt st /\ l_top st = 100).
Proof. split; [repeat constructor|]. split; [reflexivity|]. eexists. split; vm_compute; reflexivity. Qed.
