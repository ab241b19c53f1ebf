(** Proofs for C212. *)
From Coq Require Import String Lia.
From Verif Require Import Base NumModel NumSpec NumProperties ParseModel ParseSpec PrintModel ParseProperties EnvModel EvalModel EvalMono
  ApiModel LangSpec.
Local Open Scope string_scope.
Local Open Scope Z_scope.
Local Open Scope list_scope.

Lemma beq_eq a b : beq a b = true <-> a = b.
Proof.
  revert b. induction a as [|x a IH]; destruct b as [|y b]; cbn; try (split; congruence).
  rewrite andb_true_iff, IH. split; [intros (E & ->); apply Z.eqb_eq in E; congruence|intros [= -> ->]; split; [apply Z.eqb_refl|reflexivity]].
Qed.
Lemma beq_refl a : beq a a = true. Proof. now apply beq_eq. Qed.
Lemma beq_neq a b : a <> b -> beq a b = false.
Proof. intros N. destruct (beq a b) eqn:E; [apply beq_eq in E; contradiction|reflexivity]. Qed.

(** ** The text is what write prints for the program's data *)
Fixpoint code (e : exp) : val :=
  match e with
  | Num z => VInt z
  | Var x => VSym x
  | Bin o a b => VList [VSym (op_name o); code a; code b] false
  | If r a b t f => VList [sym "if"; VList [VSym (rel_name r); code a; code b] false; code t; code f] false
  | Let x a b => VList [sym "let"; VList [VList [VSym x; code a] false] false; code b] false
  | Call f args => VList (VSym f :: map code args) false
  end.
Fixpoint datum (e : exp) : rdatum :=
  match e with
  | Num z => RInt z
  | Var x => RSym x
  | Bin o a b => RList (RSym (op_name o)) [datum a; datum b] None
  | If r a b t f => RList (RSym (bs "if")) [RList (RSym (rel_name r)) [datum a; datum b] None; datum t; datum f] None
  | Let x a b => RList (RSym (bs "let")) [RList (RList (RSym x) [datum a] None) [] None; datum b] None
  | Call f args => RList (RSym f) (map datum args) None
  end.
Definition code_fn (d : fn) : val :=
  VList [sym "define"; VList (VSym (f_name d) :: map VSym (f_params d)) false; code (f_body d)] false.
Definition datum_fn (d : fn) : rdatum :=
  RList (RSym (bs "define")) [RList (RSym (f_name d)) (map RSym (f_params d)) None; datum (f_body d)] None.

(* strong induction over expressions *)
Section ExpInd.
Variable Q : exp -> Prop.
Hypothesis HN : forall z, Q (Num z).
Hypothesis HV : forall x, Q (Var x).
Hypothesis HB : forall o a b, Q a -> Q b -> Q (Bin o a b).
Hypothesis HI : forall r a b t f, Q a -> Q b -> Q t -> Q f -> Q (If r a b t f).
Hypothesis HL : forall x a b, Q a -> Q b -> Q (Let x a b).
Hypothesis HC : forall f args, Forall Q args -> Q (Call f args).
Fixpoint exp_ind' (e : exp) : Q e :=
  match e with
  | Num z => HN z
  | Var x => HV x
  | Bin o a b => HB o a b (exp_ind' a) (exp_ind' b)
  | If r a b t f => HI r a b t f (exp_ind' a) (exp_ind' b) (exp_ind' t) (exp_ind' f)
  | Let x a b => HL x a b (exp_ind' a) (exp_ind' b)
  | Call f args => HC f args ((fix go l : Forall Q l := match l with [] => Forall_nil _ | x :: r => Forall_cons x (exp_ind' x) (go r) end) args)
  end.
End ExpInd.

Lemma program_code e : program (datum e) = Some (code e).
Proof.
  induction e using exp_ind'; cbn [datum code program].
  - reflexivity.
  - reflexivity.
  - now rewrite IHe1, IHe2.
  - now rewrite IHe1, IHe2, IHe3, IHe4.
  - now rewrite IHe1, IHe2.
  - match goal with |- context[?g (map datum args)] => assert (E : g (map datum args) = Some (map code args)) end.
    { induction H as [|x l Hx _ IH]; cbn [map]; [reflexivity|]. now rewrite Hx, IH. }
    now rewrite E.
Qed.
Lemma program_fn d : program (datum_fn d) = Some (code_fn d).
Proof.
  unfold datum_fn, code_fn. cbn [program].
  match goal with |- context[?g (map RSym (f_params d))] => assert (E : g (map RSym (f_params d)) = Some (map VSym (f_params d))) end.
  { induction (f_params d) as [|x l IH]; cbn [map]; [reflexivity|]. cbn [program] in *. now rewrite IH. }
  rewrite E. now rewrite program_code.
Qed.

(** *** printing *)
Lemma ident_colon x : identifier x -> print_sym x = x.
Proof.
  intros (_ & _ & _ & C & _). destruct x as [|c r]; [reflexivity|]. cbn.
  destruct (Z.eqb_spec c 58) as [->|]; [now elim (C r)|reflexivity].
Qed.
Definition not_quoting (x : list Z) : Prop :=
  x <> bs "quote" /\ x <> bs "quasiquote" /\ x <> bs "unquote" /\ x <> bs "unquote-splicing".
Lemma print_plain_list pf wm x l : identifier x -> not_quoting x ->
  print pf wm false false (RList (RSym x) l None) = paren (x :: map (print pf true false false) l).
Proof.
  intros I (Q1 & Q2 & Q3 & Q4). cbn [print starts_with]. rewrite !(beq_neq x) by assumption. cbn [print].
  rewrite (ident_colon x I). unfold paren, spaced. cbn [app]. f_equal. rewrite <- app_assoc. f_equal. f_equal.
  induction l as [|y l IH]; cbn [map flat_map]; [reflexivity|]. now rewrite IH.
Qed.
Lemma print_list_list pf wm h r l t : t = None ->
  print pf wm false false (RList (RList h r t) l None) = paren (map (print pf true false false) (RList h r t :: l)).
Proof.
  intros _. cbn [print starts_with map]. unfold paren, spaced. cbn [app]. f_equal. rewrite <- app_assoc. f_equal. f_equal.
  induction l as [|y l IH]; cbn [map flat_map]; [reflexivity|]. now rewrite IH.
Qed.

Lemma fixed_names : forall x, In x ([bs "if"; bs "let"; bs "define"] ++ map op_name [OAdd; OSub; OMul; OQuo; ORem; OMod] ++
  map rel_name [REq; RLt; RGt; RLe; RGe]) -> identifier x /\ not_quoting x.
Proof.
  assert (D : forall c, (65 <=? c) && (c <=? 90) || (97 <=? c) && (c <=? 122) || (48 <=? c) && (c <=? 57) || existsb (Z.eqb c) punct = true -> ident_char c).
  { intros c H. rewrite !orb_true_iff, !andb_true_iff, !Z.leb_le in H. unfold ident_char, letter, digit.
    destruct H as [[[H|H]|H]|H]; [lia|lia|lia|]. apply existsb_exists in H as (y & I & E). apply Z.eqb_eq in E as ->. now right; right. }
  assert (F : forall x, forallb (fun c => (65 <=? c) && (c <=? 90) || (97 <=? c) && (c <=? 122) || (48 <=? c) && (c <=? 57) || existsb (Z.eqb c) punct) x = true ->
    Forall ident_char x).
  { intros x H. apply Forall_forall. intros c I. apply D. rewrite forallb_forall in H. now apply H. }
  intros x I. cbn in I.
  repeat match type of I with _ \/ _ => destruct I as [I|I] end; try contradiction; subst x;
    (split; [split; [apply F; reflexivity|]; split; [discriminate|]; split; [discriminate|]; split; [discriminate|]; split; [discriminate|]; split;
       [intros c r E G; injection E as <- <-; unfold digit in G; lia
       |intros s c r E G; try discriminate; injection E as <- <- <-; unfold digit; lia]
     |unfold not_quoting; repeat split; discriminate]).
Qed.
Lemma op_ident o : identifier (op_name o) /\ not_quoting (op_name o).
Proof. apply fixed_names. destruct o; cbn; tauto. Qed.
Lemma rel_ident r : identifier (rel_name r) /\ not_quoting (rel_name r).
Proof. apply fixed_names. destruct r; cbn; tauto. Qed.
Lemma name_ident x : name x -> identifier x /\ not_quoting x.
Proof.
  intros (I & K & _). split; [assumption|]. unfold not_quoting. repeat split; intros ->; apply K; unfold keywords; apply in_map; cbn; tauto.
Qed.
Lemma if_ident : identifier (bs "if") /\ not_quoting (bs "if"). Proof. apply fixed_names. cbn. tauto. Qed.
Lemma let_ident : identifier (bs "let") /\ not_quoting (bs "let"). Proof. apply fixed_names. cbn. tauto. Qed.
Lemma define_ident : identifier (bs "define") /\ not_quoting (bs "define"). Proof. apply fixed_names. cbn. tauto. Qed.

Lemma print_code pf e wm : wf e -> print pf wm false false (datum e) = show e.
Proof.
  intros W. revert wm. induction e using exp_ind'; intros wm; inversion W; subst; cbn [datum show].
  - reflexivity.
  - cbn [print]. apply ident_colon. now apply name_ident.
  - rewrite print_plain_list by apply op_ident. cbn [map]. now rewrite IHe1, IHe2.
  - rewrite print_plain_list by apply if_ident. cbn [map]. rewrite print_plain_list by apply rel_ident. cbn [map].
    now rewrite IHe1, IHe2, IHe3, IHe4.
  - rewrite print_plain_list by apply let_ident. cbn [map]. rewrite print_list_list by reflexivity. cbn [map].
    rewrite print_plain_list by now apply name_ident. cbn [map]. now rewrite IHe1, IHe2.
  - rewrite print_plain_list by now apply name_ident. do 2 f_equal. rewrite map_map. apply map_ext_in. intros a I.
    rewrite Forall_forall in *. auto.
Qed.
Lemma write_exp pf e : wf e -> write_datum pf (datum e) = show e.
Proof. apply print_code. Qed.
Lemma write_fn pf d : wf_fn d -> write_datum pf (datum_fn d) = show_fn d.
Proof.
  intros (N & Ps & _ & W). unfold write_datum, datum_fn, show_fn. rewrite print_plain_list by apply define_ident. cbn [map].
  rewrite print_plain_list by now apply name_ident. rewrite (print_code pf _ true W). assert (E : map (print pf true false false) (map RSym (f_params d)) = f_params d); [|now rewrite E].
  rewrite map_map. rewrite <- (map_id (f_params d)) at 2. apply map_ext_in. intros x I. rewrite Forall_forall in Ps.
  cbn [print]. now apply ident_colon, name_ident, Ps.
Qed.

(** *** and it reads back *)
Lemma not_quote_word x : not_quoting x -> ~ quote_word (RSym x).
Proof. intros (A & B & C & D) [E|[E|[E|E]]]; injection E as ->; contradiction. Qed.
Lemma plain_sym_list x l : identifier x -> not_quoting x -> Forall plain l -> plain (RList (RSym x) l None).
Proof. intros I N F. apply pl_list; [now apply not_quote_word|now constructor|assumption]. Qed.
Lemma small_range z : small z <-> i64_min < z <= i64_max.
Proof. unfold small, i64_min, i64_max. change (2 ^ 63) with 9223372036854775808. lia. Qed.
Lemma plain_exp e : wf e -> plain (datum e).
Proof.
  intros W. induction e using exp_ind'; inversion W; subst; cbn [datum].
  - constructor. now apply small_range.
  - constructor. now apply name_ident.
  - apply plain_sym_list; [apply op_ident|apply op_ident|repeat constructor; auto].
  - apply plain_sym_list; [apply if_ident|apply if_ident|].
    constructor; [apply plain_sym_list; [apply rel_ident|apply rel_ident|repeat constructor; auto]|repeat constructor; auto].
  - apply plain_sym_list; [apply let_ident|apply let_ident|]. destruct (name_ident _ H2) as (I1 & I2).
    constructor; [|repeat constructor; auto]. apply pl_list; [intros [E|[E|[E|E]]]; discriminate|apply plain_sym_list; auto|constructor].
  - apply plain_sym_list; [now apply name_ident|now apply name_ident|]. apply Forall_map.
    rewrite Forall_forall in *. auto.
Qed.
Lemma plain_fn d : wf_fn d -> plain (datum_fn d).
Proof.
  intros (N & Ps & _ & W). unfold datum_fn. apply plain_sym_list; [apply define_ident|apply define_ident|].
  constructor; [|constructor; [now apply plain_exp|constructor]].
  apply plain_sym_list; [now apply name_ident|now apply name_ident|]. apply Forall_map. eapply Forall_impl; [|exact Ps].
  intros x Nx. constructor. now apply name_ident.
Qed.
Definition pf1 : dbl -> list Z := fun _ => [].
Lemma read_exp e : wf e -> parse (show e) = Ok (datum e).
Proof. intros W. rewrite <- (write_exp pf1 e W). now apply c32_round_trip, plain_exp. Qed.
Lemma read_fn d : wf_fn d -> parse (show_fn d) = Ok (datum_fn d).
Proof. intros W. rewrite <- (write_fn pf1 d W). now apply c32_round_trip, plain_fn. Qed.

(** ** States that differ in newer frames only *)
Definition same (L : nat) (st st' : state) : Prop :=
  firstn L (s_frames st') = firstn L (s_frames st) /\ (L <= length (s_frames st))%nat /\
  (length (s_frames st) <= length (s_frames st'))%nat /\
  s_mods st' = s_mods st /\ s_cur st' = s_cur st /\ s_proms st' = s_proms st /\ s_dyn st' = s_dyn st.
Definition ext (st st' : state) : Prop := same (length (s_frames st)) st st'.
Lemma same_refl L st : (L <= length (s_frames st))%nat -> same L st st.
Proof. unfold same. intuition. Qed.
Lemma ext_refl st : ext st st. Proof. now apply same_refl. Qed.
Lemma same_trans L a b c : same L a b -> same L b c -> same L a c.
Proof. unfold same. intros (A & B & C & D & E & F & G) (A' & B' & C' & D' & E' & F' & G'). repeat split; try congruence; lia. Qed.
Lemma same_less L K a b : (L <= K)%nat -> same K a b -> same L a b.
Proof.
  unfold same. intros LK (A & B & C & R). repeat split; try apply R; try lia.
  replace L with (Nat.min L K) by lia. rewrite <- !firstn_firstn. now rewrite A.
Qed.
Lemma same_frame L a b i : same L a b -> (i < L)%nat -> frame_at b i = frame_at a i.
Proof.
  intros (A & B & C & _) I. unfold frame_at.
  rewrite <- (firstn_skipn L (s_frames b)), <- (firstn_skipn L (s_frames a)), !app_nth1, A; auto; rewrite firstn_length; lia.
Qed.
Lemma same_length L a b : same L a b -> (length (s_frames a) <= length (s_frames b))%nat.
Proof. unfold same. tauto. Qed.
Lemma same_le L a b : same L a b -> (L <= length (s_frames a))%nat.
Proof. unfold same. tauto. Qed.
Lemma ext_same L a b : (L <= length (s_frames a))%nat -> ext a b -> same L a b.
Proof. intros H. now apply same_less. Qed.

Lemma search_chain_same L a b c x : same L a b -> Forall (fun i => i < L)%nat c -> search_chain b c x = search_chain a c x.
Proof.
  intros S F. induction F as [|i c I _ IH]; cbn [search_chain]; [reflexivity|]. now rewrite (same_frame _ _ _ _ S I), IH.
Qed.
