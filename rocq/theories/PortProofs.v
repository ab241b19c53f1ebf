From Coq Require Import Lia String.
From Verif Require Import Base NumModel StringModel StringProofs ParseModel PrintModel ParseSpec ParseProofs ParseProofs2 PortModel PortSpec.
Local Open Scope list_scope.

(** ** Input ports *)
Definition ip_ok (data : list Z) (k : nat) (cl : bool) (p : iport) : Prop :=
  ip_data p = data /\ ip_len p = Z.of_nat (length data) /\ ip_pos p = Z.of_nat (Nat.min k (length data)) /\ ip_closed p = cl.
Definition closes (op : iop) : bool := match op with OpCloseIn => true | _ => false end.
Definition expected (data : list Z) (k : nat) (cl : bool) (op : iop) : ians :=
  match op with
  | OpRead | OpPeek => if cl then AEof else ans_of (nth_error data k)
  | OpReady => ABool (negb cl && match nth_error data k with Some _ => true | None => false end)
  | OpCloseIn => ANone
  end.
Lemma data_at_ok p k : (k < length (ip_data p))%nat -> exists c, nth_error (ip_data p) k = Some c /\ data_at p (Z.of_nat k) = Ok c.
Proof.
  intros L. destruct (nth_error (ip_data p) k) as [c|] eqn:E; [|apply nth_error_None in E; lia].
  exists c. split; auto. unfold data_at. destruct (Z.ltb_spec (Z.of_nat k) 0); [lia|]. destruct (Z.ltb_spec (Z.of_nat (length (ip_data p))) (Z.of_nat k)); [lia|].
  cbn [orb]. rewrite Nat2Z.id. now rewrite (nth_error_nth _ _ _ E).
Qed.
Lemma istep_ok data k cl p op : Z.of_nat (length data) <= int_max -> ip_ok data k cl p ->
  exists p', iport_step p op = Ok (expected data k cl op, p') /\
    ip_ok data (match op with OpRead => if cl then k else S k | _ => k end) (cl || closes op) p'.
Proof.
  intros M (D & L & P & C).
  assert (Hmin : forall j, (length data <= k)%nat -> Nat.min j (length data) = length data -> Nat.min k (length data) = length data) by (intros; lia).
  destruct op; cbn [iport_step expected closes]; rewrite ?orb_false_r, ?orb_true_r.
  - unfold read_char_port. rewrite C. destruct cl.
    + eexists. split; [reflexivity|]. unfold ip_ok; auto.
    + rewrite P, L, Z.geb_leb. destruct (Z.leb_spec (Z.of_nat (length data)) (Z.of_nat (Nat.min k (length data)))).
      * assert (nth_error data k = None) as -> by (apply nth_error_None; lia).
        eexists. split; [reflexivity|]. unfold ip_ok. repeat split; auto. rewrite P. f_equal. lia.
      * rewrite Nat.min_l by lia. destruct (data_at_ok p k) as (c & E & A); [rewrite D; lia|]. rewrite A. cbn [bind].
        destruct (Z.leb_spec int_max (Z.of_nat k)); [lia|]. cbn [bind]. rewrite D in E. rewrite E.
        eexists. split; [reflexivity|]. unfold ip_ok. cbn [ip_data ip_len ip_pos ip_closed]. repeat split; auto. lia.
  - unfold peek_char_port. rewrite C. destruct cl; [eexists; split; [reflexivity|]; unfold ip_ok; repeat split; auto|].
    rewrite P, L, Z.geb_leb. destruct (Z.leb_spec (Z.of_nat (length data)) (Z.of_nat (Nat.min k (length data)))).
    + assert (nth_error data k = None) as -> by (apply nth_error_None; lia). eexists. split; [reflexivity|]. unfold ip_ok. repeat split; auto.
    + rewrite Nat.min_l by lia. destruct (data_at_ok p k) as (c & E & A); [rewrite D; lia|]. rewrite A. cbn [bind].
      rewrite D in E. rewrite E. eexists. split; [reflexivity|]. unfold ip_ok. repeat split; auto.
  - rewrite C. destruct cl; [eexists; split; [reflexivity|]; unfold ip_ok; repeat split; auto|].
    exists p. split; [|unfold ip_ok; repeat split; auto]. do 3 f_equal. cbn [negb andb]. rewrite P, L.
    destruct (nth_error data k) eqn:E.
    + assert (k < length data)%nat by (apply nth_error_Some; congruence). apply Z.ltb_lt. lia.
    + apply nth_error_None in E. apply Z.ltb_ge. lia.
  - eexists. split; [reflexivity|]. unfold ip_ok. cbn. repeat split; auto.
Qed.
Lemma irun_ok data : Z.of_nat (length data) <= int_max -> forall ops k cl p, ip_ok data k cl p ->
  exists l p' k', iport_run p ops = Ok (l, p') /\ ip_ok data k' (cl || existsb closes ops) p' /\
    (cl || existsb closes ops = false -> k' = (k + reads ops)%nat).
Proof.
  intros M. induction ops as [|op ops IH]; intros k cl p I; cbn [iport_run existsb].
  - exists [], p, k. split; auto. rewrite orb_false_r. split; auto.
  - destruct (istep_ok data k cl p op M I) as (p1 & E & I1). rewrite E. cbn [bind].
    destruct (IH _ _ _ I1) as (l & p2 & k' & E2 & I2 & K). rewrite E2. cbn [bind].
    eexists _, p2, k'. split; [reflexivity|]. rewrite <- orb_assoc in *. split; auto. intros Q. rewrite (K Q).
    apply orb_false_iff in Q. destruct Q as [-> _]. destruct op; cbn; lia.
Qed.
Lemma existsb_closes ops : existsb closes ops = true <-> closed_in ops.
Proof.
  unfold closed_in. rewrite existsb_exists. split.
  - intros (x & I & C). now destruct x.
  - intros I. now exists OpCloseIn.
Qed.

(** ** Output ports *)
(* out: text so far; the buffer holds it, a NUL follows it inside the block *)
Definition op_ok (out : list Z) (cl : bool) (p : oport) : Prop :=
  op_cap p = Z.of_nat (length (op_buf p)) /\ 256 <= op_cap p /\ op_len p = Z.of_nat (length out) /\
  op_len p + 1 <= op_cap p /\ firstn (length out) (op_buf p) = out /\ op_closed p = cl.

Lemma firstn_set_other : forall (l : list Z) n i x, (n <= i)%nat -> firstn n (set_byte l i x) = firstn n l.
Proof. induction l as [|e l IH]; intros [|n] [|i] x L; cbn; auto; try lia. now rewrite IH by lia. Qed.
Lemma firstn_set_last : forall (l : list Z) n x, (n < length l)%nat -> firstn (S n) (set_byte l n x) = firstn n l ++ [x].
Proof.
  induction l as [|e l IH]; intros [|n] x L; cbn in L; try lia; [reflexivity|].
  cbn [set_byte firstn app]. f_equal. specialize (IH n x ltac:(lia)). exact IH.
Qed.
Lemma buf_set_ok p i x : 0 <= i < Z.of_nat (length (op_buf p)) ->
  buf_set p i x = Ok (mkOport (set_byte (op_buf p) (Z.to_nat i) x) (op_len p) (op_cap p) (op_closed p)).
Proof. intros L. unfold buf_set. destruct (Z.ltb_spec i 0); [lia|]. destruct (Z.leb_spec (Z.of_nat (length (op_buf p))) i); [lia|]. reflexivity. Qed.
Lemma int_ok_eq z : z <= int_max -> int_ok z = Ok z.
Proof. intros L. unfold int_ok. destruct (Z.ltb_spec int_max z); [lia|reflexivity]. Qed.

Lemma grow_ok out p : op_ok out false p -> op_cap p * 2 <= int_max ->
  exists p', grow p = Ok p' /\ op_ok out false p' /\ op_cap p' = op_cap p * 2.
Proof.
  intros (A & B & C & D & E & F) L. unfold grow. destruct (Z.eqb_spec (op_cap p) 0); [lia|].
  rewrite int_ok_eq by auto. cbn [bind]. eexists. split; [reflexivity|]. split; [|reflexivity].
  assert (Hn : Z.to_nat (op_cap p * 2) = (2 * length (op_buf p))%nat) by lia.
  unfold op_ok. cbn [op_buf op_len op_cap op_closed]. rewrite Hn.
  rewrite (firstn_all2 (n := 2 * length (op_buf p))) by lia. rewrite app_length, repeat_length.
  split; [lia|]. split; [lia|]. split; [auto|]. split; [lia|]. split; [|auto].
  rewrite firstn_app. replace (length out - length (op_buf p))%nat with 0%nat by lia. cbn. now rewrite app_nil_r.
Qed.
Lemma write_char_ok out p ch : op_ok out false p -> Z.of_nat (length out) + 2 <= 2 ^ 30 ->
  op_cap p <= 2 ^ 30 \/ Z.of_nat (length out) + 1 < op_cap p ->
  exists p', write_char_port p ch = Ok p' /\ op_ok (out ++ [ch]) false p' /\ (op_cap p' = op_cap p \/ op_cap p <= Z.of_nat (length out) + 1 /\ op_cap p' = 2 * op_cap p).
Proof.
  intros I L HC. unfold write_char_port. assert (I' := I). destruct I as (A & B & C & D & E & F). rewrite F.
  rewrite int_ok_eq by (unfold int_max; lia). cbn [bind].
  assert (G : exists p1, (if op_len p + 1 >=? op_cap p then grow p else Ok p) = Ok p1 /\ op_ok out false p1 /\ op_len p + 2 <= op_cap p1 /\ (op_cap p1 = op_cap p \/ op_cap p <= Z.of_nat (length out) + 1 /\ op_cap p1 = 2 * op_cap p)).
  { rewrite Z.geb_leb. destruct (Z.leb_spec (op_cap p) (op_len p + 1)).
    - destruct (grow_ok out p I') as (p1 & Eg & I1 & Cg); [unfold int_max; lia|]. exists p1. split; auto. split; auto. lia.
    - exists p. split; auto. split; auto. lia. }
  destruct G as (p1 & -> & I1 & L1 & CC). cbn [bind]. destruct I1 as (A1 & B1 & C1 & D1 & E1 & F1).
  rewrite buf_set_ok by lia. cbn [bind]. unfold set_len. cbn [op_buf op_len op_cap op_closed].
  rewrite buf_set_ok by (cbn [op_buf]; rewrite set_byte_length; lia). cbn [op_buf op_len op_cap op_closed].
  eexists. split; [reflexivity|]. split; [|exact CC]. unfold op_ok. cbn [op_buf op_len op_cap op_closed].
  rewrite !set_byte_length, app_length. cbn [length]. split; [lia|]. split; [lia|]. split; [lia|]. split; [lia|]. split; [|auto].
  rewrite firstn_set_other by lia. rewrite C1, Nat2Z.id.
  replace (length out + 1)%nat with (S (length out)) by lia. rewrite firstn_set_last by lia. now rewrite E1.
Qed.
Lemma grow_loop_ok : forall fuel out p len, op_ok out false p -> 0 <= len ->
  Z.of_nat (length out) + len + 2 <= 2 ^ 30 -> 2 ^ 31 <= op_cap p * 2 ^ Z.of_nat fuel ->
  exists p', grow_loop (S fuel) p len = Ok p' /\ op_ok out false p' /\ op_len p + len + 1 < op_cap p' /\
    (op_cap p' = op_cap p \/ op_cap p' <= 2 * (Z.of_nat (length out) + len + 1)).
Proof.
  induction fuel as [|fuel IH]; intros out p len I L0 L W; cbn [grow_loop].
  - assert (I' := I). destruct I as (A & B & C & D & E & F). rewrite int_ok_eq by (unfold int_max; lia). cbn [bind].
    cbn in W. rewrite Z.geb_leb. destruct (Z.leb_spec (op_cap p) (op_len p + len + 1)); [lia|].
    exists p. split; auto.
  - assert (I' := I). destruct I as (A & B & C & D & E & F). rewrite int_ok_eq by (unfold int_max; lia). cbn [bind].
    rewrite Z.geb_leb. destruct (Z.leb_spec (op_cap p) (op_len p + len + 1)) as [Q|Q]; [|exists p; split; auto].
    destruct (grow_ok out p I') as (p1 & Eg & I1 & Cg); [unfold int_max; lia|]. rewrite Eg. cbn [bind].
    assert (Hlen : op_len p1 = op_len p) by (destruct I1 as (_ & _ & X & _); congruence).
    destruct (IH out p1 len I1 L0 L) as (p2 & E2 & I2 & L2 & C2).
    { rewrite Cg. rewrite Nat2Z.inj_succ, Z.pow_succ_r in W by lia. lia. }
    exists p2. split; [exact E2|]. split; auto. split; [lia|]. right. destruct C2 as [C2|C2]; [|lia]. rewrite C2, Cg. lia.
Qed.
Lemma buf_copy_ok : forall s out p, op_cap p = Z.of_nat (length (op_buf p)) -> firstn (length out) (op_buf p) = out ->
  Z.of_nat (length out) + Z.of_nat (length s) <= Z.of_nat (length (op_buf p)) ->
  exists p', buf_copy p (Z.of_nat (length out)) s = Ok p' /\ op_cap p' = op_cap p /\ op_len p' = op_len p /\ op_closed p' = op_closed p /\
    length (op_buf p') = length (op_buf p) /\ firstn (length out + length s) (op_buf p') = out ++ s.
Proof.
  induction s as [|c s IH]; intros out p A E L; cbn [buf_copy].
  - exists p. rewrite app_nil_r, Nat.add_0_r. repeat split; auto.
  - cbn [length] in L. rewrite buf_set_ok by lia. cbn [bind]. rewrite Nat2Z.id.
    set (p1 := mkOport _ _ _ _). destruct (IH (out ++ [c]) p1) as (p' & E1 & C1 & L1 & F1 & N1 & S1).
    + unfold p1. cbn. now rewrite set_byte_length.
    + unfold p1. cbn [op_buf]. rewrite app_length. cbn [length]. replace (length out + 1)%nat with (S (length out)) by lia.
      rewrite firstn_set_last by lia. now rewrite E.
    + unfold p1. cbn [op_buf]. rewrite set_byte_length, app_length. cbn [length]. lia.
    + rewrite app_length in E1, S1. cbn [length] in E1, S1. exists p'.
      replace (Z.of_nat (length out) + 1) with (Z.of_nat (length out + 1)) by lia. split; [exact E1|].
      unfold p1 in *. cbn [op_buf op_cap op_len op_closed] in *. rewrite set_byte_length in N1. repeat split; auto.
      rewrite <- app_assoc in S1. cbn [app length] in *. rewrite <- S1. f_equal. lia.
Qed.
Lemma until_nul_id s : ~ In 0 s -> until_nul s = s.
Proof.
  induction s as [|c s IH]; intros N; [reflexivity|]. cbn [until_nul]. destruct (Z.eqb_spec c 0) as [-> |]; [elim N; now left|].
  rewrite IH; auto. intros I. apply N. now right.
Qed.
Lemma write_text_ok out p t : op_ok out false p -> ~ In 0 t -> Z.of_nat (length out) + Z.of_nat (length t) + 2 <= 2 ^ 30 ->
  exists p', write_text_port p t = Ok p' /\ op_ok (out ++ t) false p' /\ (op_cap p' = op_cap p \/ op_cap p' <= 2 * (Z.of_nat (length out) + Z.of_nat (length t) + 1)).
Proof.
  intros I N L. unfold write_text_port. assert (I' := I). destruct I as (A & B & C & D & E & F). rewrite F, until_nul_id by auto. cbv zeta.
  rewrite int_ok_eq by (unfold int_max; lia). cbn [bind].
  destruct (grow_loop_ok 39 out p (Z.of_nat (length t)) I' ltac:(lia) ltac:(lia)) as (p1 & Eg & I1 & L1 & C1).
  { apply Z.le_trans with (256 * 2 ^ 39); [vm_compute; congruence|]. change (Z.of_nat 39) with 39. nia. }
  change 40%nat with (S 39). rewrite Eg. cbn [bind]. destruct I1 as (A1 & B1 & D1 & E1 & F1 & G1).
  rewrite D1. destruct (buf_copy_ok t out p1 A1 F1) as (p2 & E2 & C2 & L2 & K2 & N2 & S2); [lia|]. rewrite E2. cbn [bind].
  rewrite L2, D1. rewrite int_ok_eq by (unfold int_max; lia). cbn [bind]. unfold set_len. cbn [op_len].
  rewrite buf_set_ok by (cbn [op_buf]; lia). cbn [op_buf op_len op_cap op_closed].
  eexists. split; [reflexivity|]. split; [|rewrite C2; exact C1]. unfold op_ok. cbn [op_buf op_len op_cap op_closed].
  rewrite set_byte_length, app_length. split; [lia|]. split; [lia|]. split; [lia|]. split; [lia|]. split; [|congruence].
  rewrite firstn_set_other by lia. exact S2.
Qed.
Lemma orun_closed : forall ops p, op_closed p = true -> exists p', oport_run p ops = Ok p' /\ get_output p' = get_output p.
Proof.
  induction ops as [|op ops IH]; intros p C; cbn [oport_run]; [eauto|].
  assert (S1 : exists p1, oport_step p op = Ok p1 /\ op_closed p1 = true /\ get_output p1 = get_output p).
  { destruct op; cbn [oport_step]; unfold write_char_port, write_text_port; rewrite ?C; eauto. }
  destruct S1 as (p1 & -> & C1 & G1). cbn [bind]. destruct (IH p1 C1) as (p' & E & G). exists p'. split; auto. congruence.
Qed.
Lemma orun_ok : forall ops out p, op_ok out false p -> nul_free ops ->
  op_cap p <= 2 ^ 30 \/ Z.of_nat (length out) + Z.of_nat (length (written ops)) + 2 <= op_cap p ->
  Z.of_nat (length out) + Z.of_nat (length (written ops)) + 2 <= 2 ^ 30 ->
  exists p', oport_run p ops = Ok p' /\ get_output p' = out ++ written ops.
Proof.
  induction ops as [|op ops IH]; intros out p I N HC L; cbn [oport_run written].
  - exists p. split; auto. rewrite app_nil_r. destruct I as (A & B & C & D & E & F). unfold get_output. now rewrite C, Nat2Z.id.
  - assert (N' : nul_free ops) by (intros t H; apply N; now right).
    assert (WC : forall ch, written (op :: ops) = ch :: written ops ->
      exists p', (do p' <- write_char_port p ch; oport_run p' ops) = Ok p' /\ get_output p' = out ++ ch :: written ops).
    { intros ch W. rewrite W in *. cbn [length] in *. destruct (write_char_ok out p ch I ltac:(lia) ltac:(lia)) as (p1 & E1 & I1 & C1). rewrite E1. cbn [bind].
      destruct (IH (out ++ [ch]) p1 I1 N') as (p' & E & G); [rewrite app_length; cbn [length]; lia|rewrite app_length; cbn [length]; lia|].
      exists p'. split; auto. rewrite G, <- app_assoc. reflexivity. }
    destruct op as [c| |t|]; cbn [oport_step written].
    + now apply WC.
    + now apply WC.
    + cbn [written] in *. rewrite app_length in *.
      destruct (write_text_ok out p t I) as (p1 & E1 & I1 & C1); [apply N; now left|lia|]. rewrite E1. cbn [bind].
      destruct (IH (out ++ t) p1 I1 N') as (p' & E & G); [rewrite app_length; lia|rewrite app_length; lia|].
      exists p'. split; auto. rewrite G, <- app_assoc. reflexivity.
    + cbn [bind]. set (p1 := mkOport _ _ _ _). destruct (orun_closed ops p1 eq_refl) as (p' & E & G). exists p'. split; auto.
      rewrite G, app_nil_r. destruct I as (A & B & C & D & E' & F). unfold get_output, p1. cbn. now rewrite C, Nat2Z.id.
Qed.

(** ** The expression splitter *)
Definition pre (t : list Z) (o : option (list Z * list Z)) : option (list Z * list Z) :=
  match o with Some (b, k) => Some (t ++ b, k) | None => None end.
Lemma pre_nil o : pre [] o = o. Proof. now destruct o as [[b k]|]. Qed.
Lemma pre_app a b o : pre a (pre b o) = pre (a ++ b) o.
Proof. destruct o as [[x k]|]; cbn; auto. now rewrite app_assoc. Qed.
(* t is passed over at depth k *)
Definition neutral (t : list Z) (k : Z) : Prop := forall s pos, 0 <= pos -> pos + Z.of_nat (length t) <= 4095 ->
  collect (t ++ s) pos k false false = pre t (collect s (pos + Z.of_nat (length t)) k false false).
Lemma neutral_nil k : neutral [] k.
Proof. intros s pos _ _. cbn [app length]. rewrite pre_nil. f_equal. lia. Qed.
Lemma neutral_app a b k : neutral a k -> neutral b k -> neutral (a ++ b) k.
Proof.
  intros A B s pos P L. rewrite app_length in *. rewrite <- app_assoc, A, B by lia. rewrite pre_app. do 2 f_equal. lia.
Qed.
Lemma collect_cons c s pos k i e : pos < 4095 ->
  collect (c :: s) pos k i e =
    let keep d i' e' := pre [c] (collect s (pos + 1) d i' e') in
    if e then keep k i false
    else if (c =? 92) && i then keep k i true
    else if c =? 34 then keep k (negb i) false
    else if i then keep k i false
    else if c =? 40 then keep (k + 1) i false
    else if c =? 41 then
      if (k - 1 <? 0) || (k - 1 =? 0) then Some ([c], s) else keep (k - 1) i false
    else if (k =? 0) && ((c =? 32) || (c =? 9) || (c =? 10) || (c =? 13)) then Some ([], s)
    else keep k i false.
Proof. intros L. cbn [collect]. rewrite Z.geb_leb. destruct (Z.leb_spec 4095 pos); [lia|]. reflexivity. Qed.
Lemma neutral_char c k : c <> 34 -> c <> 40 -> c <> 41 -> (k = 0 -> c <> 32 /\ c <> 9 /\ c <> 10 /\ c <> 13) -> neutral [c] k.
Proof.
  intros A B C D s pos P L. cbn [app length] in *. rewrite collect_cons by lia. cbv zeta.
  rewrite andb_false_r. neq. destruct (Z.eqb_spec k 0) as [-> |]; cbn [andb]; [|reflexivity].
  destruct (D eq_refl) as (D1 & D2 & D3 & D4). neq. reflexivity.
Qed.
Lemma neutral_cons c t k : neutral [c] k -> neutral t k -> neutral (c :: t) k.
Proof. intros A B. exact (neutral_app [c] t k A B). Qed.
Lemma neutral_forall t k : Forall (fun c => c <> 34 /\ c <> 40 /\ c <> 41 /\ (k = 0 -> c <> 32 /\ c <> 9 /\ c <> 10 /\ c <> 13)) t -> neutral t k.
Proof. induction 1 as [|c t (A & B & C & D) _ IH]; [apply neutral_nil|]. apply neutral_cons; auto. now apply neutral_char. Qed.
(* inside a string literal *)
Lemma in_string_ok k : forall s r pos, Forall (fun b => 0 <= b <= 255) s -> 0 <= pos -> pos + Z.of_nat (length (flat_map str_byte s)) <= 4095 ->
  collect (flat_map str_byte s ++ r) pos k true false = pre (flat_map str_byte s) (collect r (pos + Z.of_nat (length (flat_map str_byte s))) k true false).
Proof.
  induction s as [|c s IH]; intros r pos F P L; cbn [flat_map app length].
  - rewrite pre_nil. f_equal. lia.
  - inversion F as [|? ? Fc Fs]; subst. cbn [flat_map] in L. rewrite app_length in *.
    assert (G : forall a x p, a <> 92 -> a <> 34 -> p < 4095 -> collect (a :: x) p k true false = pre [a] (collect x (p + 1) k true false)).
    { intros a x p A B C. rewrite collect_cons by auto. cbv zeta. neq. reflexivity. }
    assert (H : forall x p, p < 4095 -> collect (92 :: x) p k true false = pre [92] (collect x (p + 1) k true true)).
    { intros x p C. rewrite collect_cons by auto. reflexivity. }
    assert (J : forall a x p, p < 4095 -> collect (a :: x) p k true true = pre [a] (collect x (p + 1) k true false)).
    { intros a x p C. rewrite collect_cons by auto. reflexivity. }
    rewrite <- app_assoc.
    destruct (str_byte_cases c Fc) as [(E & _ & A & B & C)|[(e & E & _ & _ & A)|(x & y & z & E & _ & X & Y & Z)]]; rewrite E in *; cbn [app length] in *.
    + rewrite G, IH, pre_app by (auto; lia). do 2 f_equal. lia.
    + rewrite H, J, IH, !pre_app by (auto; lia). do 2 f_equal. lia.
    + rewrite H, J, !G, IH, !pre_app by (auto; lia). do 2 f_equal. lia.
Qed.
Lemma neutral_str s k : Forall (fun b => 0 <= b <= 255) s -> neutral (print_str s) k.
Proof.
  intros F r pos P L. unfold print_str in *. cbn [length] in L. rewrite app_length in L. cbn [length] in L.
  cbn [app length]. rewrite app_length. cbn [length]. rewrite collect_cons by lia. cbv zeta. rewrite andb_false_r. cbn [Z.eqb Pos.eqb negb].
  rewrite <- app_assoc. rewrite in_string_ok by (auto; lia). cbn [app]. rewrite collect_cons by lia. cbv zeta. cbn [Z.eqb Pos.eqb negb andb].
  rewrite !pre_app. cbn [app]. do 2 f_equal. lia.
Qed.
(* a bracketed text *)
Definition brackets (t : list Z) : Prop := exists p body, t = p ++ 40 :: body ++ [41] /\ (p = [] \/ p = [35]) /\ (forall k, 1 <= k -> neutral body k).
Lemma brackets_neutral t k : brackets t -> 1 <= k -> neutral t k.
Proof.
  intros (p & body & -> & P & N) K. apply neutral_app.
  - destruct P as [-> | ->]; [apply neutral_nil|]. apply neutral_char; lia.
  - intros s pos P0 L. cbn [length] in L. rewrite app_length in L. cbn [length] in L.
    cbn [app length]. rewrite app_length. cbn [length]. rewrite collect_cons by lia. cbv zeta. cbn [Z.eqb Pos.eqb andb].
    rewrite <- app_assoc. rewrite (N (k + 1) ltac:(lia)) by lia. cbn [app]. rewrite collect_cons by lia. cbv zeta. cbn [Z.eqb Pos.eqb andb].
    destruct (Z.ltb_spec (k + 1 - 1) 0); [lia|]. destruct (Z.eqb_spec (k + 1 - 1) 0); [lia|]. cbn [orb].
    rewrite !pre_app. cbn [app]. do 2 f_equal; lia.
Qed.
Lemma brackets_top t s : brackets t -> Z.of_nat (length t) <= 4095 -> collect (t ++ s) 0 0 false false = Some (t, s).
Proof.
  intros (p & body & -> & P & N) L. rewrite app_length in L. cbn [length] in L. rewrite app_length in L. cbn [length] in L.
  assert (NP : neutral p 0) by (destruct P as [-> | ->]; [apply neutral_nil|apply neutral_char; lia]).
  rewrite <- app_assoc. rewrite NP by lia. cbn [app]. rewrite collect_cons by lia. cbv zeta. cbn [Z.eqb Pos.eqb andb].
  rewrite <- app_assoc. change (0 + 1) with 1. rewrite (N 1 ltac:(lia)) by lia. cbn [app]. rewrite collect_cons by lia. cbv zeta. cbn [Z.eqb Pos.eqb andb orb Z.ltb Z.sub Z.add Z.opp Z.pos_sub Z.compare Pos.compare].
  reflexivity.
Qed.

Definition atom_char (c : Z) : Prop := c <> 34 /\ c <> 40 /\ c <> 41 /\ c <> 32 /\ c <> 9 /\ c <> 10 /\ c <> 13.
Lemma neutral_atom t k : Forall atom_char t -> neutral t k.
Proof. intros F. apply neutral_forall. eapply Forall_impl; [|exact F]. unfold atom_char. intros c (A & B & C & D). auto. Qed.
Lemma atom_of_list l : forallb (fun c => negb (mem c [34; 40; 41; 32; 9; 10; 13])) l = true -> Forall atom_char l.
Proof.
  rewrite forallb_forall. intros H. apply Forall_forall. intros c I. specialize (H c I). unfold mem in H. cbn in H.
  rewrite negb_true_iff, !orb_false_iff, !Z.eqb_neq in H. unfold atom_char. tauto.
Qed.
Lemma dec_atom z : Forall atom_char (dec z).
Proof.
  assert (H : forall y, 0 <= y -> Forall atom_char (dec_nat y)).
  { intros y L. unfold dec_nat. eapply Forall_impl; [|apply (dec_loop_digits _ y []); auto]. unfold digit, atom_char. intros; lia. }
  unfold dec. destruct (Z.ltb_spec z 0); [constructor; [unfold atom_char; lia|]|]; apply H; lia.
Qed.
Lemma ident_atom n : Forall ident_char n -> Forall atom_char n.
Proof.
  intros F. eapply Forall_impl; [|exact F]. intros c I. pose proof (ident_char_facts c I) as (_ & _ & S & H). unfold isspace in S.
  apply orb_false_iff in S. destruct S as [S1 S2]. apply Z.eqb_neq in S1. unfold atom_char. 
  destruct (Z.leb_spec 9 c), (Z.leb_spec c 13); cbn in S2; try discriminate; lia.
Qed.
Lemma sym_print_atom pf qq uq n : identifier n -> Forall atom_char (print pf true qq uq (RSym n)).
Proof.
  intros I. assert (E : print pf true qq uq (RSym n) = n).
  { cbn [print]. destruct I as (_ & N & _ & C & _). destruct n as [|c n]; [congruence|]. cbn. destruct (Z.eqb_spec c 58) as [-> |]; [now elim (C n)|reflexivity]. }
  rewrite E. apply ident_atom, I.
Qed.
Lemma seq_neutral pf qq uq l k : 1 <= k -> Forall (fun x => neutral (print pf true qq uq x) k) l -> neutral (seq pf qq uq l) k.
Proof. intros K. induction 1; cbn [seq]; [apply neutral_nil|]. apply neutral_cons; [apply neutral_char; lia|]. now apply neutral_app. Qed.

Lemma split_ok pf : forall d, plain d -> portable d -> forall qq uq,
  (forall k, 1 <= k -> neutral (print pf true qq uq d) k) /\
  (~ compound d -> neutral (print pf true qq uq d) 0) /\
  (compound d -> qq = false -> brackets (print pf true qq uq d)).
Proof.
  assert (ATOM : forall d t, ~ compound d -> Forall atom_char t -> (forall k, 1 <= k -> neutral t k) /\ (~ compound d -> neutral t 0) /\ (compound d -> false = false -> brackets t)).
  { intros d t N F. split; [intros; now apply neutral_atom|]. split; [intros; now apply neutral_atom|tauto]. }
  assert (BR : forall d t, compound d -> brackets t -> (forall k, 1 <= k -> neutral t k) /\ (~ compound d -> neutral t 0) /\ (compound d -> false = false -> brackets t)).
  { intros d t N F. split; [intros; now apply brackets_neutral|]. split; tauto. }
  assert (WK : forall d t, (forall k, 1 <= k -> neutral t k) /\ (~ compound d -> neutral t 0) /\ (compound d -> false = false -> brackets t) ->
      forall qq : bool, (forall k, 1 <= k -> neutral t k) /\ (~ compound d -> neutral t 0) /\ (compound d -> qq = false -> brackets t)).
  { intros d t (A & B & C) qq. auto. }
  induction d as [z|f|a b|b|b|n|s| |l IH|h l t IHh IHl IHt] using rdatum_ind'; intros P O qq uq; inversion P; subst.
  - apply WK, ATOM; [intros [(x & y & w & E)|[(x & E)|E]]; discriminate|]. apply dec_atom.
  - assert (NC : ~ compound (RChar b)) by (intros [(x & y & w & E)|[(x & E)|E]]; discriminate).
    assert (A : Forall atom_char (print_char b)).
    { unfold print_char. destruct (Z.eqb_spec b 32); [apply atom_of_list; reflexivity|]. destruct (Z.eqb_spec b 10); [apply atom_of_list; reflexivity|].
      destruct (Z.eqb_spec b 9); [apply atom_of_list; reflexivity|]. destruct (O b (oc_char b)) as (O1 & O2 & O3 & O4).
      repeat constructor; unfold atom_char; lia. }
    apply WK, ATOM; auto.
  - apply WK, ATOM; [intros [(x & y & w & E)|[(x & E)|E]]; discriminate|]. cbn [print]. destruct b; apply atom_of_list; reflexivity.
  - apply WK, ATOM; [intros [(x & y & w & E)|[(x & E)|E]]; discriminate|]. now apply sym_print_atom.
  - assert (B : Forall (fun b => 0 <= b <= 255) s) by (eapply Forall_impl; [|eassumption]; cbn; intros; lia).
    cbn [print]. split; [intros; now apply neutral_str|]. split; [intros; now apply neutral_str|].
    intros [(x & y & w & E)|[(x & E)|E]]; discriminate.
  - apply WK, BR; [right; now right|]. exists [], []. split; [reflexivity|]. split; [now left|]. intros; apply neutral_nil.
  - apply WK, BR; [right; left; eauto|]. destruct l as [|x l].
    + exists [35], []. split; [reflexivity|]. split; [now right|]. intros; apply neutral_nil.
    + rewrite print_vec, go_seq. exists [35], (print pf true qq uq x ++ seq pf qq uq l). split.
      { cbn [bs list_ascii_of_string map app]. now rewrite <- app_assoc. }
      split; [now right|]. intros k K.
      assert (G : Forall (fun x => neutral (print pf true qq uq x) k) (x :: l)).
      { apply Forall_forall. intros y Iy. rewrite Forall_forall in IH. apply IH; auto; [rewrite Forall_forall in H0; auto|].
        intros b Ob. apply O. eapply oc_vec; eauto. }
      inversion G; subst. apply neutral_app; auto. now apply seq_neutral.
  - apply WK, BR; [left; eauto|]. cbn [print]. rewrite !starts_with_false by (auto; cbn; tauto). rewrite go_seq.
    exists [], (print pf true qq uq h ++ seq pf qq uq l). split; [now rewrite <- app_assoc|]. split; [now left|]. intros k K.
    apply neutral_app; [apply IHh; auto; intros b Ob; apply O; now apply oc_head|]. apply seq_neutral; auto.
    apply Forall_forall. intros y Iy. rewrite Forall_forall in IHl. apply IHl; auto; [rewrite Forall_forall in H4; auto|].
    intros b Ob. apply O. eapply oc_elem; eauto.
  - rename t0 into t. apply WK, BR; [left; eauto|]. cbn [print]. rewrite !starts_with_false by (auto; cbn; tauto). rewrite !go_seq.
    assert (Eq : match t with RList h2 r2 None => 32 :: print pf true qq uq h2 ++ (fix go l := match l with [] => [] | x :: r => 32 :: print pf true qq uq x ++ go r end) r2 ++ [41] | _ => bs " . " ++ print pf true qq uq t ++ [41] end = bs " . " ++ print pf true qq uq t ++ [41]).
    { destruct t as [| | | | | | | | |h2 r2 [t2|]]; auto. elim H6. now exists h2, r2. }
    exists [], (print pf true qq uq h ++ seq pf qq uq l ++ bs " . " ++ print pf true qq uq t). split.
    { cbn [app]. f_equal. rewrite <- !app_assoc. do 2 f_equal. exact Eq. }
    split; [now left|]. intros k K.
    apply neutral_app; [apply IHh; auto; intros b Ob; apply O; now apply oc_head|]. apply neutral_app.
    { apply seq_neutral; auto.
      apply Forall_forall. intros y Iy. rewrite Forall_forall in IHl. apply IHl; auto; [rewrite Forall_forall in H4; auto|].
      intros b Ob. apply O. eapply oc_elem; eauto. }
    apply neutral_app.
    { cbn. repeat (apply neutral_cons; [apply neutral_char; lia|]). apply neutral_nil. }
    eapply IHt; eauto. intros b Ob. apply O. now apply oc_tail.
  - rename d into x.
    assert (Ox : portable x) by (intros b Ob; apply O; eapply oc_elem; eauto; now left).
    assert (NX : forall q u k, 1 <= k -> neutral (print pf true q u x) k).
    { intros q u k K. inversion IHl; subst. now apply H2. }
    assert (BW : forall q u w, In w ["quote"%string; "quasiquote"%string; "unquote"%string; "unquote-splicing"%string] ->
        brackets (40 :: (bs w ++ 32 :: print pf true q u x) ++ [41])).
    { intros q u w I. exists [], (bs w ++ 32 :: print pf true q u x). split; [reflexivity|]. split; [now left|]. intros k K.
      apply neutral_app; [|apply neutral_cons; [apply neutral_char; lia|auto]]. apply neutral_atom, ident_atom.
      assert (IW : identifier (bs w)) by (apply ident_word; cbn in I |- *; decompose [or] I; subst; tauto). apply IW. }
    destruct H1 as [-> |[-> |[-> | ->]]]; cbn [print starts_with];
    repeat match goal with |- context [beq ?a ?b] => let v := eval vm_compute in (beq a b) in change (beq a b) with v; cbn iota end.
    + destruct (qq && negb uq) eqn:Q.
      * split; [intros k K; apply neutral_cons; [apply neutral_char; lia|auto]|]. split; [intros NC; elim NC; left; eauto|].
        intros _ ->. discriminate.
      * assert (EQ : forall P, bs "(quote" ++ (32 :: P) ++ [41] = 40 :: (bs "quote" ++ 32 :: P) ++ [41]) by (intros; rewrite <- !app_assoc; reflexivity).
        rewrite EQ. apply WK, BR; [left; eauto|]. apply BW. cbn. tauto.
    + assert (EQ : forall P, bs "(quasiquote " ++ P ++ [41] = 40 :: (bs "quasiquote" ++ 32 :: P) ++ [41]) by (intros; rewrite <- !app_assoc; reflexivity).
      rewrite EQ. apply WK, BR; [left; eauto|]. apply BW. cbn. tauto.
    + assert (EQ : forall P, bs "(unquote" ++ (32 :: P) ++ [41] = 40 :: (bs "unquote" ++ 32 :: P) ++ [41]) by (intros; rewrite <- !app_assoc; reflexivity).
      rewrite EQ. apply WK, BR; [left; eauto|]. apply BW. cbn. tauto.
    + assert (EQ : forall P, bs "(unquote-splicing" ++ (32 :: P) ++ [41] = 40 :: (bs "unquote-splicing" ++ 32 :: P) ++ [41]) by (intros; rewrite <- !app_assoc; reflexivity).
      rewrite EQ. apply WK, BR; [left; eauto|]. apply BW. cbn. tauto.
Qed.
