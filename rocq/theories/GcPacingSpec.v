(** What the claims about collection pacing and heap growth say, in terms of
    the program's view of its heap (GcSpec.v). *)
From Verif Require Import Base GcModel GcSpec.

(** the sum of [f] over a list *)
Fixpoint sumz (f : Z -> Z) (l : list Z) : Z :=
  match l with [] => 0 | a :: r => f a + sumz f r end.

(** the bytes of heap behind a pointer: its header and its payload *)
Definition footprint (s : gc) (p : Z) : Z :=
  match lookup (mem s) (p - 16) with Some b => 16 + bsize b | None => 0 end.

(** Runs of the allocator and collector, with the number of bytes requested
    (headers included) and the number of collections the allocator started on
    its own. *)
Inductive paced (page : Z) : gc -> Z -> Z -> Prop :=
| pc_init st : paced page (gc_init st page) 0 0
| pc_quiet s n c os r t size p s' : paced page s n c -> 0 <= size -> since s < threshold s ->
    gc_alloc os page r t size s = Ok (p, s') -> paced page s' (n + (16 + size)) c
| pc_collecting s n c os r t size p s' : paced page s n c -> 0 <= size -> threshold s <= since s ->
    gc_alloc os page r t size s = Ok (p, s') -> paced page s' (n + (16 + size)) (c + 1)
| pc_write s n c p o s' : paced page s n c -> write_obj s p o = Ok s' -> paced page s' n c
| pc_explicit s n c r s' : paced page s n c -> run_gc r s = Ok s' -> paced page s' n c.

(** Histories of a program that allocates the structs of pscm_types.h and whose
    surviving objects never exceed [limit] bytes at a collection ([live_bytes]
    is exactly that amount: c210_counters). *)
Inductive frugal (page limit : Z) : gc -> view -> list Z -> Prop :=
| fr_init st : page_size page -> 0 < st -> st mod page = 0 -> frugal page limit (gc_init st page) [] []
| fr_alloc s v ever os r t p s' v' :
    frugal page limit s v ever -> fresh_mapping page s os ->
    gc_alloc os page r t (sizeof t) s = Ok (p, s') -> within v r v' -> live_bytes s' <= limit ->
    frugal page limit s' (mkentry p (sizeof t) (zero_obj t) :: v') (p :: ever)
| fr_write s v ever v1 e v2 o s' :
    frugal page limit s v ever -> v = v1 ++ e :: v2 -> tag_of o = tag_of (e_obj e) ->
    write_obj s (e_ptr e) o = Ok s' ->
    frugal page limit s' (v1 ++ mkentry (e_ptr e) (e_size e) o :: v2) ever
| fr_collect s v ever r s' v' :
    frugal page limit s v ever -> run_gc r s = Ok s' -> within v r v' -> live_bytes s' <= limit ->
    frugal page limit s' v' ever.
