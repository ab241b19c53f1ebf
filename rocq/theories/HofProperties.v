(** C218.  A whole program whose procedures are values in one file: what
    pscm_eval_file answers, and when it does not return. *)
From Coq Require Import String Lia.
From Verif Require Import Base NumModel NumSpec ParseModel ParseSpec PrintModel ParseProperties EnvModel EvalModel EvalMono ApiModel
  LangSpec LangProofs LangProofs2 LangProofs3 LangProperties HoSpec HoText HoProofs HoProperties HerSpec HerProofs HerProperties
  HdvSpec HdvProofs HdvProperties EvalWitness.
Local Open Scope string_scope.
Local Open Scope Z_scope.
Local Open Scope list_scope.

Lemma parse_spaced ds : ds <> [] -> Forall plain ds -> parse_all (spaced (map (write_datum pf1) ds)) = Ok ds.
Proof.
  intros N Pl. destruct ds as [|d l]; [now elim N|]. cbn [map spaced]. rewrite <- (c32_sequence pf1 d l Pl). do 2 f_equal. clear.
  induction l as [|x l IH]; cbn; [reflexivity|]. now rewrite IH.
Qed.
(* the file is its expressions, one after the other *)
Lemma file_is (nm : list Z -> Prop) prim P es n s : (forall x, nm x -> name x) -> Forall (hwf_fn nm) P -> Forall (hwf nm) es -> es <> [] ->
  pscm_eval_file prim n (Some (spaced (map hshow_fn P ++ map hshow es))) s = eval_all prim n (map hcode_fn P ++ map hcode es) None s.
Proof.
  intros NM WP WE N. set (ds := map hdatum_fn P ++ map hdatum es).
  assert (Q : map hshow_fn P ++ map hshow es = map (write_datum pf1) ds).
  { unfold ds. rewrite map_app, !map_map. f_equal; apply map_ext_in; intros x I.
    - rewrite Forall_forall in WP. specialize (WP x I). pose proof WP as (Nx & Ps & _ & Wb). unfold write_datum, hdatum_fn, hshow_fn.
      rewrite print_plain_list by apply define_ident. cbn [map]. rewrite print_plain_list by now apply (nm_ident nm NM).
      rewrite (hprint_code nm NM pf1 _ true Wb). now rewrite (print_syms nm NM).
    - rewrite Forall_forall in WE. symmetry. apply (hprint_code nm NM). auto. }
  assert (Pl : Forall plain ds).
  { unfold ds. apply Forall_app. split; apply Forall_map; [eapply Forall_impl; [|exact WP]; intros; now apply (hplain_fn nm NM)|].
    eapply Forall_impl; [|exact WE]. intros; now apply (hplain_exp nm NM). }
  assert (Nd : ds <> []).
  { unfold ds. intros X. apply app_eq_nil in X as (_ & X). apply map_eq_nil in X. contradiction. }
  unfold pscm_eval_file. rewrite Q, (parse_spaced ds Nd Pl).
  assert (PR : programs ds = Some (map hcode_fn P ++ map hcode es)).
  { unfold ds. clear. induction P as [|d P IH]; cbn [map app programs].
    - induction es as [|x l IH]; cbn [map programs]; [reflexivity|]. now rewrite hprogram_code, IH.
    - now rewrite hprogram_fn, IH. }
  now rewrite PR.
Qed.
Lemma eval_all_after prim xs ys n acc s vs s1 : seq (map (fun x n s => pscm_eval prim n x s) xs) n s = Some (vs, s1) ->
  eval_all prim n (xs ++ ys) acc s = eval_all prim n ys (last vs acc) s1.
Proof.
  revert acc s vs. induction xs as [|x r IH]; intros acc s vs; cbn [eval_all seq map app].
  - intros [= <- <-]. reflexivity.
  - destruct (pscm_eval prim n x s); try discriminate. destruct (seq _ n s0) as [[vs' s2]|] eqn:E; [|discriminate]. intros [= <- <-].
    rewrite (IH _ _ _ E). f_equal. now rewrite last_cons.
Qed.
Lemma eval_all_ok prim xs n acc s o s' : eval_all prim n xs acc s = AOk o s' ->
  exists vs, seq (map (fun x n s => pscm_eval prim n x s) xs) n s = Some (vs, s') /\ o = last vs acc.
Proof.
  revert acc s. induction xs as [|x r IH]; intros acc s; cbn [eval_all seq map].
  - intros [= <- <-]. exists []. auto.
  - destruct (pscm_eval prim n x s) ; try discriminate. intros Q. destruct (IH _ _ Q) as (vs & E & ->).
    eexists. rewrite E. split; [reflexivity|]. now rewrite last_cons.
Qed.
Lemma evals_do prim xs : Forall2 (does prim) (map (fun x n s => pscm_eval prim n x s) xs) xs.
Proof. induction xs; cbn [map]; constructor; auto. intros st L. apply eval_runs. lia. Qed.
Lemma told_last ws w (os : list (option val)) o acc : Forall2 told (ws ++ [w]) os -> last os acc = o -> told w o.
Proof.
  intros F <-. apply Forall2_app_inv_l in F as (o1 & o2 & _ & F & ->). inversion F as [|? y ? ? T R]; subst. inversion R; subst.
  now rewrite last_last.
Qed.

(** One file with the definitions and the expressions, separated by spaces: from
    some depth of the C stack on, the answer is that of the last expression. *)
Theorem c218_file : forall prim s P es ws e w, numeric prim -> ready s ->
  Forall (hwf_fn (plain_name s)) P -> NoDup (map h_name P) -> Forall (unbound s) (map h_name P) ->
  Forall (hwf (plain_name s)) (es ++ [e]) -> Forall2 (result P (unbound s)) (es ++ [e]) (ws ++ [w]) ->
  exists N s' o, told w o /\ a_key s' = herr_after (ws ++ [w]) (a_key s) /\ forall n, (N <= n)%nat ->
    pscm_eval_file prim n (Some (spaced (map hshow_fn P ++ map hshow (es ++ [e])))) s = AOk o s'.
Proof.
  intros prim s P es ws e w HN R WP ND F WE E.
  destruct (hfns_steps prim (plain_name s) (unbound s) P WP [] _ s (hinv_start s R) F ND (evals_do prim _)) as (s1 & X & I & K1).
  destruct (hres_steps prim HN (plain_name s) (pl_name s) (unbound s) P _ WP WE _ _ s1 I E (evals_do prim _)) as (N & s2 & os & Y & T & _ & K2).
  exists (1 + N)%nat, s2, (last os None). split; [eapply told_last; eauto|]. split; [congruence|]. intros n Hn.
  assert (NE : es ++ [e] <> []) by (intros Q; apply app_eq_nil in Q as (_ & Q); discriminate Q).
  rewrite (file_is (plain_name s) prim P _ n s (pl_name s) WP WE NE).
  rewrite (eval_all_after prim _ _ n None s _ s1 (X n ltac:(lia))). rewrite (eval_all_seq prim _ n _ s1 os s2 (Y n ltac:(lia))).
  f_equal. destruct os as [|o os]; [|now rewrite !last_cons]. inversion T as [Q|]; subst. symmetry in Q. apply app_eq_nil in Q as (_ & Q). discriminate Q.
Qed.
Print Assumptions c218_file.

(** Whatever pscm_eval_file answers, at whatever depth of the C stack, is what the
    rules say of the last expression, every expression having a result; unless one
    of them, everything before it having a result, leaves what the rules speak about. *)
Theorem c218_answers : forall prim s P es e n o s', numeric prim -> ready s ->
  Forall (hwf_fn (plain_name s)) P -> NoDup (map h_name P) -> Forall (unbound s) (map h_name P) ->
  Forall (fun d => hscoped P (unbound s) (h_params d) (h_body d)) P ->
  Forall (hwf (plain_name s)) (es ++ [e]) -> Forall (hscoped P (unbound s) []) (es ++ [e]) ->
  pscm_eval_file prim n (Some (spaced (map hshow_fn P ++ map hshow (es ++ [e])))) s = AOk o s' ->
  (exists ws w, Forall2 (result P (unbound s)) (es ++ [e]) (ws ++ [w]) /\ told w o) \/
  (exists e1 x e2 ws, es ++ [e] = e1 ++ x :: e2 /\ Forall2 (result P (unbound s)) e1 ws /\ stray P [] x).
Proof.
  intros prim s P es e n o s' HN R WP ND F SP WE SE Q.
  assert (NE : es ++ [e] <> []) by (intros X; apply app_eq_nil in X as (_ & X); discriminate X).
  rewrite (file_is (plain_name s) prim P _ n s (pl_name s) WP WE NE) in Q.
  assert (FIN : forall Q0 s1 acc, Forall (hwf_fn (plain_name s)) Q0 -> Forall (fun d => hscoped Q0 (unbound s) (h_params d) (h_body d)) Q0 ->
     Q0 = P -> hinv (plain_name s) (unbound s) Q0 s1 -> eval_all prim n (map hcode (es ++ [e])) acc s1 = AOk o s' ->
     (exists ws w, Forall2 (result P (unbound s)) (es ++ [e]) (ws ++ [w]) /\ told w o) \/
     (exists e1 x e2 ws, es ++ [e] = e1 ++ x :: e2 /\ Forall2 (result P (unbound s)) e1 ws /\ stray P [] x)).
  { intros Q0 s1 acc WQ SQ -> I A. destruct (eval_all_ok prim _ n acc s1 o s' A) as (vs & S2 & ->).
    destruct (hexps_conv prim HN (plain_name s) (pl_name s) (unbound s) P WP SP n _ WE SE _ s1 vs s' I (evals_do prim _) S2)
      as [(ws & E & T)|Y]; [left|now right].
    pose proof E as E0. apply Forall2_app_inv_l in E0 as (w1 & w2 & _ & E2 & ->). inversion E2 as [|? w ? ? _ N2]; subst. inversion N2; subst.
    exists w1, w. split; [exact E|]. eapply told_last; eauto. }
  destruct (Nat.eq_dec n 0) as [->|N0].
  { destruct P as [|d P].
    - exact (FIN [] s None WP SP eq_refl (hinv_start s R) Q).
    - exfalso. destruct (eval_runs prim (hcode_fn d) s ltac:(pose proof (r_room _ R); lia)) as (st1 & _ & _ & _ & Fu).
      cbn [map app eval_all] in Q. rewrite (Fu 0%nat eq_refl) in Q. discriminate Q. }
  destruct (hfns_steps prim (plain_name s) (unbound s) P WP [] _ s (hinv_start s R) F ND (evals_do prim _)) as (s1 & X & I & _).
  rewrite (eval_all_after prim _ _ n None s _ s1 (X n ltac:(lia))) in Q. exact (FIN P s1 _ WP SP eq_refl I Q).
Qed.
Print Assumptions c218_answers.

(** A file with an expression to which the rules give no result, and which does not
    leave what they speak about, everything before it having a result: pscm_eval_file
    never returns, at any depth of the C stack, whatever comes after. *)
Theorem c218_never : forall prim s P es ws e rest n, numeric prim -> ready s ->
  Forall (hwf_fn (plain_name s)) P -> NoDup (map h_name P) -> Forall (unbound s) (map h_name P) ->
  Forall (fun d => hscoped P (unbound s) (h_params d) (h_body d)) P ->
  Forall (hwf (plain_name s)) (es ++ e :: rest) -> Forall (hscoped P (unbound s) []) (es ++ [e]) ->
  Forall2 (result P (unbound s)) es ws -> (forall w, ~ result P (unbound s) e w) -> ~ stray P [] e ->
  pscm_eval_file prim n (Some (spaced (map hshow_fn P ++ map hshow (es ++ e :: rest)))) s = AFuel.
Proof.
  intros prim s P es ws e rest n HN R WP ND F SP WE SE E NE NO.
  assert (NN : es ++ e :: rest <> []) by (intros X; apply app_eq_nil in X as (_ & X); discriminate X).
  rewrite (file_is (plain_name s) prim P _ n s (pl_name s) WP WE NN).
  assert (FIN : forall s1 acc, hinv (plain_name s) (unbound s) P s1 -> eval_all prim n (map hcode (es ++ e :: rest)) acc s1 = AFuel).
  { clear NN. revert ws E. induction es as [|x es IH]; intros ws E s1 acc I.
    - cbn [app map eval_all]. inversion WE; subst. inversion SE; subst.
      destruct (hexp_conv prim HN (plain_name s) (pl_name s) (unbound s) P WP SP n e (fun n => pscm_eval prim n (hcode e) s1) s1 H1 H3 I
        (eval_runs prim (hcode e) s1 ltac:(pose proof (hi_room _ _ _ _ I); lia))) as [->|[Y|(w & ? & ? & Ew & _)]]; [reflexivity|contradiction|].
      now elim (NE w).
    - cbn [app map eval_all]. cbn [app] in WE, SE. inversion WE; subst. inversion SE; subst. inversion E as [|? w ? ws' Ew Es]; subst.
      destruct (hexp_conv prim HN (plain_name s) (pl_name s) (unbound s) P WP SP n x (fun n => pscm_eval prim n (hcode x) s1) s1 H1 H3 I
        (eval_runs prim (hcode x) s1 ltac:(pose proof (hi_room _ _ _ _ I); lia))) as [->|[Y|(w' & o & s2 & _ & _ & -> & I2)]]; [reflexivity| |].
      + now elim (c217_exclusive P (unbound s) x w ND Ew).
      + now apply (IH H2 H4 ws' Es). }
  destruct (Nat.eq_dec n 0) as [->|N0].
  { destruct P as [|d P].
    - cbn [map app]. exact (FIN s None (hinv_start s R)).
    - destruct (eval_runs prim (hcode_fn d) s ltac:(pose proof (r_room _ R); lia)) as (st1 & _ & _ & _ & Fu).
      cbn [map app eval_all]. now rewrite (Fu 0%nat eq_refl). }
  destruct (hfns_steps prim (plain_name s) (unbound s) P WP [] _ s (hinv_start s R) F ND (evals_do prim _)) as (s1 & X & I & _).
  rewrite (eval_all_after prim _ _ n None s _ s1 (X n ltac:(lia))). exact (FIN s1 _ I).
Qed.
Print Assumptions c218_never.

(** ** Concrete cases *)
Example c218_runs : match pscm_eval_file prim212 60 (Some (spaced (map hshow_fn ho_progs ++ map hshow (ho_exps ++ her_exps)))) api212 with
  AOk o s => o = Some (VInt 7) /\ a_key s = Some (bs "error") | _ => False end.
Proof. vm_compute. auto. Qed.
(* the self-application in the middle of a file *)
Example c218_omega : forall n, pscm_eval_file prim212 n
  (Some (bs "((lambda (x) (+ x 4)) 3) ((lambda (x) (x x)) (lambda (x) (x x))) 5")) api212 = AFuel.
Proof.
  intros n. assert (Nx : plain_name api212 (bs "x")).
  { split; [apply named; [apply lower; [discriminate|reflexivity]|reflexivity]|]. intros v E. discriminate E. }
  assert (Wl : hwf (plain_name api212) (HLam [bs "x"] self)).
  { apply hwf_lam; [constructor; [exact Nx|constructor]|constructor; [intros []|constructor]|]. apply hwf_app; [exact Logic.I|apply hwf_var; exact Nx|constructor; [apply hwf_var; exact Nx|constructor]]. }
  assert (Sl : hscoped [] (unbound api212) [] (HLam [bs "x"] self)).
  { apply hs_lam. cbn [app]. apply hs_app; [|constructor; [|constructor]]; apply hs_var; left; now left. }
  apply (c218_never prim212 api212 [] [HApp (HLam [bs "x"] (HBin OAdd (v_ "x") (HNum 4))) [HNum 3]] [Some (HI 7)] omega [HNum 5] n numeric212 ready212).
  - constructor.
  - constructor.
  - constructor.
  - constructor.
  - constructor; [|constructor; [|constructor; [now constructor|constructor]]].
    + apply hwf_app; [exact Logic.I| |repeat constructor].
      apply hwf_lam; [constructor; [exact Nx|constructor]|constructor; [intros []|constructor]|]. apply hwf_bin; [apply hwf_var; exact Nx|now constructor].
    + apply hwf_app; [exact Logic.I|exact Wl|constructor; [exact Wl|constructor]].
  - constructor; [|constructor; [|constructor]].
    + apply hs_app; [|repeat constructor]. apply hs_lam. cbn [app]. apply hs_bin; [apply hs_var; left; now left|constructor].
    + apply hs_app; [exact Sl|constructor; [exact Sl|constructor]].
  - constructor; [|constructor]. apply result_value.
    eapply hev_app with (ps := [bs "x"]) (vs := [HI 3]) (r' := []); [constructor|repeat constructor|reflexivity|].
    apply (hev_bin _ _ OAdd _ _ 3 4); [now constructor|constructor|intros [Q|[Q|Q]]; discriminate Q|reflexivity].
  - exact (omega_no _).
  - exact omega_nostray.
Qed.
