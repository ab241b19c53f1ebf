(** What a hash table is meant to be: a finite map from keys (up to the
    family's notion of sameness) to values. *)
From Verif Require Import Base NumModel HeapModel EqModel HashModel.

(** Keys of equal-tables: symbols, strings, integers, booleans, the empty
    list, and (nested, proper) lists of those. *)
Inductive hkey : Type :=
| HSym (s : list Z) | HStr (s : list Z) | HNum (z : Z) | HBool (b : bool)
| HNil | HCons (a d : hkey).
Fixpoint hsize (x : hkey) : nat :=
  match x with HCons a d => 2 + hsize a + hsize d | _ => 1 end%nat.
(** [hrep h a x]: the object at [a] is such a key.  Booleans and the empty list
    are the interpreter's singletons; no dotted cells; no NUL characters. *)
Inductive hrep (h : heap) : addr -> hkey -> Prop :=
| hr_sym a s : h_obj h a = Some (OSym s) -> ~ In 0 s -> hrep h a (HSym s)
| hr_str a s : h_obj h a = Some (OStr s) -> ~ In 0 s -> hrep h a (HStr s)
| hr_num a z : h_obj h a = Some (ONum z) -> hrep h a (HNum z)
| hr_bool b : h_obj h (bool_a b) = Some (OBool b) -> hrep h (bool_a b) (HBool b)
| hr_nil : h_obj h nil_a = Some ONil -> hrep h nil_a HNil
| hr_list a c x d : h_obj h a = Some (OList c) -> hchain h (Some c) (HCons x d) -> hrep h a (HCons x d)
with hchain (h : heap) : option addr -> hkey -> Prop :=
| hc_nil : hchain h None HNil
| hc_cons c k x d : h_cell h c = Some k -> c_dotted k = false -> hrep h (c_data k) x ->
    hchain h (c_next k) d -> hchain h (Some c) (HCons x d).

(** Keys up to sameness. *)
Inductive ckey : Type :=
| KSym (s : list Z) | KNum (z : Z) | KChar (c : Z) | KBool (b : bool)
| KPtr (a : addr)
| KData (x : hkey).
Definition hkey_eq_dec : forall a b : hkey, {a = b} + {a <> b}.
Proof.
  decide equality; try (apply list_eq_dec; apply Z.eq_dec); try apply Z.eq_dec; try apply Bool.bool_dec.
Defined.
Definition ckey_eq_dec : forall a b : ckey, {a = b} + {a <> b}.
Proof.
  decide equality; try (apply list_eq_dec; apply Z.eq_dec); try apply Z.eq_dec; try apply Bool.bool_dec.
  - apply Nat.eq_dec.
  - apply hkey_eq_dec.
Defined.
(** hashq: symbols by name, everything else by identity.
    hashv: integers, characters and booleans by value, the rest by identity.
    hash: the structure of the key. *)
Definition canon (fam : family) (o : obj) (a : addr) : ckey :=
  match fam, o with
  | Feq, OSym s => KSym s
  | Feqv, ONum z => KNum z
  | Feqv, OChar c => KChar c
  | Feqv, OBool b => KBool b
  | _, _ => KPtr a
  end.
(** [key_in fam h a c]: the object at [a] is a key of the family, with identity
    [c].  Every live object is a key for hashq and hashv. *)
Definition key_in (fam : family) (h : heap) (a : addr) (c : ckey) : Prop :=
  match fam with
  | Fequal => exists x, hrep h a x /\ c = KData x
  | _ => exists o, h_obj h a = Some o /\ canon fam o a = c
  end.
(** loop bound needed to hash or compare a key *)
Definition csize (c : ckey) : nat := match c with KData x => hsize x | _ => 1%nat end.

(** Finite maps. *)
Definition fmap := ckey -> option addr.
Definition m_empty : fmap := fun _ => None.
Definition m_set (m : fmap) (c : ckey) (v : addr) : fmap :=
  fun d => if ckey_eq_dec d c then Some v else m d.
Definition m_remove (m : fmap) (c : ckey) : fmap :=
  fun d => if ckey_eq_dec d c then None else m d.

(** [table h t m]: the table at [t] holds the finite map [m]: a lookup
    structure whose entries are pairwise different keys, each stored with its
    value, in the bucket its hash selects, and whose size field is the number
    of entries. *)
Record entry := mkE { e_cell : addr; e_vcell : addr; e_key : addr; e_ckey : ckey; e_val : addr }.
Definition entry_in (fam : family) (h : heap) (e : entry) : Prop :=
  h_cell h (e_cell e) = Some (mkCell (e_key e) (Some (e_vcell e)) false) /\
  h_cell h (e_vcell e) = Some (mkCell (e_val e) None true) /\
  key_in fam h (e_key e) (e_ckey e).
Definition cells_of (es : list entry) : list addr := map e_cell es ++ map e_vcell es.
(** the hash of a key: content of symbols and strings, value of numbers,
    combination of the elements for lists; otherwise the machine address [pa] *)
Fixpoint hash_hkey (pa : addr -> Z) (x : hkey) (acc : Z) : Z :=
  match x with
  | HCons a d =>
      hash_hkey pa d (u64 (acc * 31 + match a with
                                      | HSym s | HStr s => hash_bytes s
                                      | HNum z => u64 z
                                      | HBool b => u64 (pa (bool_a b))
                                      | HNil => u64 (pa nil_a)
                                      | HCons _ _ => hash_hkey pa a 0
                                      end))
  | _ => acc
  end.
Definition hash_ck (fam : family) (pa : addr -> Z) (h : heap) (c : ckey) : Z :=
  match c with
  | KSym s => hash_bytes s
  | KNum z => u64 z
  | KChar c => c mod 256
  | KBool b => if b then 1 else 0
  | KPtr a => match h_obj h a with Some (OSym s) => hash_bytes s | _ => u64 (pa a) end
  | KData (HSym s) | KData (HStr s) => hash_bytes s
  | KData (HNum z) => u64 z
  | KData (HBool b) => u64 (pa (bool_a b))
  | KData HNil => u64 (pa nil_a)
  | KData x => hash_hkey pa x 0
  end.
Definition table (fam : family) (pa : addr -> Z) (h : heap) (t : addr) (m : fmap) : Prop :=
  exists (ess : list (list entry)) sz,
    h_obj h t = Some (OHash (map (map e_cell) ess) sz) /\
    sz = Z.of_nat (length (concat ess)) /\
    ess <> [] /\
    (forall i e, In e (nth i ess []) -> Z.of_nat i = hash_ck fam pa h (e_ckey e) mod Z.of_nat (length ess)) /\
    (forall e, In e (concat ess) -> entry_in fam h e) /\
    NoDup (map e_ckey (concat ess)) /\
    NoDup (cells_of (concat ess)) /\
    (forall c v, m c = Some v <-> exists e, In e (concat ess) /\ e_ckey e = c /\ e_val e = v).

(** The operations of a client, and what each of them must answer. *)
Inductive hop :=
| HSet (k v : addr)
| HRef (k : addr)
| HRemove (k : addr)
| HHandle (k : addr)            (* get-handle, then car and cdr of the handle *)
| HCreate (k v : addr).         (* create-handle!, then car and cdr of the handle *)
Inductive hres :=
| RVal (a : addr)
| RNo                           (* #f *)
| RPair (key : ckey) (v : addr).
Definition spec_step (m : fmap) (ck : ckey) (op : hop) : fmap * hres :=
  match op with
  | HSet _ v => (m_set m ck v, RVal v)
  | HRef _ => (m, RVal (match m ck with Some v => v | None => false_a end))
  | HRemove _ => (m_remove m ck, RVal none_a)
  | HHandle _ => (m, match m ck with Some v => RPair ck v | None => RNo end)
  | HCreate _ v => (m_set m ck v, RPair ck v)
  end.
Definition op_key (op : hop) : addr :=
  match op with HSet k _ | HRef k | HRemove k | HHandle k | HCreate k _ => k end.
Fixpoint spec_run (m : fmap) (ops : list (hop * ckey)) : fmap * list hres :=
  match ops with
  | [] => (m, [])
  | (op, ck) :: r =>
      let '(m1, x) := spec_step m ck op in
      let '(m2, xs) := spec_run m1 r in (m2, x :: xs)
  end.

(** The same client, run on the model. *)
From Verif Require Import ListModel.
Inductive hobs := ObVal (a : addr) | ObNo | ObPair (a d : addr).
Definition observe_handle (m : M addr) : M hobs :=
  let! p := m in
  if Nat.eqb p false_a then ret ObNo
  else let! a := car p in let! d := cdr p in ret (ObPair a d).
Definition do_op (fam : family) (fuel : nat) (pa : addr -> Z) (t : addr) (op : hop) : M hobs :=
  match op with
  | HSet k v => let! r := hash_set fam fuel pa t k v in ret (ObVal r)
  | HRef k => let! r := hash_ref fam fuel pa t k in ret (ObVal r)
  | HRemove k => let! r := hash_remove fam fuel pa t k in ret (ObVal r)
  | HHandle k => observe_handle (hash_get_handle fam fuel pa t k)
  | HCreate k v => observe_handle (hash_create_handle fam fuel pa t k v)
  end.
Fixpoint do_ops (fam : family) (fuel : nat) (pa : addr -> Z) (t : addr) (ops : list hop) : M (list hobs) :=
  match ops with
  | [] => ret []
  | op :: r => let! x := do_op fam fuel pa t op in let! xs := do_ops fam fuel pa t r in ret (x :: xs)
  end.
(** an observation is the specified answer (the key seen in a handle is some
    object denoting the same key) *)
Definition obs_ok (fam : family) (h : heap) (x : hobs) (r : hres) : Prop :=
  match x, r with
  | ObVal a, RVal b => a = b
  | ObNo, RNo => True
  | ObPair a d, RPair ck v => key_in fam h a ck /\ d = v
  | _, _ => False
  end.
(** what the client must respect: keys are live objects of the supported class
    (with identity [ck], within the model's loop bound); values passed to
    create-handle! are not lists *)
Definition op_ok (fam : family) (fuel : nat) (h : heap) (op : hop) (ck : ckey) : Prop :=
  key_in fam h (op_key op) ck /\ (csize ck <= fuel)%nat /\
  match op with
  | HCreate _ v => exists o, h_obj h v = Some o /\ (forall c, o <> OList c) /\ o <> ONil
  | _ => True
  end.
