(** Small specification of sequenced indices, independent of the pointer
    code: what a user sees by iterating. *)
From Verif Require Import Prelude SeqModel.

(** [follow f x l]: starting at [x], the pointers [f] visit exactly [l] *)
Fixpoint follow (f : node -> option node) (x : node) (l : list node) : Prop :=
  match l with
  | [] => True
  | y :: l' => f x = Some y /\ follow f y l'
  end.

(** iterating forward from begin() to end() visits [l]; iterating backwards
    from end() to begin() visits [rev l] ([h] is the end position) *)
Definition seq_is (s : sst) (h : node) (l : list node) : Prop :=
  follow (nx s) h (l ++ [h]) /\ follow (pr s) h (rev l ++ [h]).

Definition allocated (s : sst) (x : node) : Prop :=
  (exists v, nx s x = Some v) /\ (exists v, pr s x = Some v).

Definition nodes (L : list (node * list node)) : list node :=
  concat (map (fun p => fst p :: snd p) L).

(** The memory holds the sequences [L] (end position, elements) and the
    allocated but not linked nodes [pool]; all nodes are distinct. *)
Definition heap_is (s : sst) (L : list (node * list node)) (pool : list node) : Prop :=
  Forall (fun p => seq_is s (fst p) (snd p)) L /\
  NoDup (nodes L ++ pool) /\
  Forall (allocated s) pool.

(** ** User operations without calls to user code, and what they mean on lists.
    A position is written [hd h l2] when the sequence is [l1 ++ l2]: the
    first element of [l2], or the end if there is none. *)
Inductive sop :=
| SInsert (pos x : node)
| SErase (x : node)
| SEraseRange (first last : node)
| SRelocate (pos i : node)
| SRelocateRange (pos first last : node)
| SReverse
| SRearrange (view : list node)
| SSplice (pos : node) (range : list node).   (* internal splice through another index *)

(** state: elements of the sequence, pool of unlinked nodes *)
Inductive sstep (h : node) : sop -> list node * list node -> list node * list node -> Prop :=
| st_insert l1 l2 p1 x p2 :
    sstep h (SInsert (hd h l2) x) (l1 ++ l2, p1 ++ x :: p2) (l1 ++ x :: l2, p1 ++ p2)
| st_erase a x b p :
    sstep h (SErase x) (a ++ x :: b, p) (a ++ b, p)
| st_erase_range a seg b p :
    sstep h (SEraseRange (hd h (seg ++ b)) (hd h b)) (a ++ seg ++ b, p) (a ++ b, p)
| st_relocate_self l i p :
    In i l ->
    sstep h (SRelocate i i) (l, p) (l, p)
| st_relocate a i b l1 l2 p :
    a ++ b = l1 ++ l2 ->
    sstep h (SRelocate (hd h l2) i) (a ++ i :: b, p) (l1 ++ i :: l2, p)
| st_relocate_range a seg b l1 l2 p :
    a ++ b = l1 ++ l2 ->
    sstep h (SRelocateRange (hd h l2) (hd h (seg ++ b)) (hd h b)) (a ++ seg ++ b, p) (l1 ++ seg ++ l2, p)
| st_reverse l p :
    sstep h SReverse (l, p) (rev l, p)
| st_rearrange l view p :
    Permutation l view ->
    sstep h (SRearrange view) (l, p) (view, p)
| st_splice l l1 l2 range p :
    Permutation l (l1 ++ range ++ l2) ->
    filter (fun x => negb (existsb (Nat.eqb x) range)) l = l1 ++ l2 ->
    sstep h (SSplice (hd h l2) range) (l, p) (l1 ++ range ++ l2, p).

Inductive ssteps (h : node) : list sop -> list node * list node -> list node * list node -> Prop :=
| sts_nil c : ssteps h [] c c
| sts_cons o os c1 c2 c3 : sstep h o c1 c2 -> ssteps h os c2 c3 -> ssteps h (o :: os) c1 c3.

(** running the model's code for an operation *)
Definition exec_sop (fuel : nat) (h : node) (o : sop) : SM unit :=
  match o with
  | SInsert pos x => s_insert h pos x
  | SErase x => s_erase x ;;; ret tt
  | SEraseRange f l => s_erase_range fuel f l ;;; ret tt
  | SRelocate pos i => s_relocate pos i
  | SRelocateRange pos f l => s_relocate_range pos f l
  | SReverse => reverse fuel h
  | SRearrange view => s_rearrange h view
  | SSplice pos range => s_internal_splice pos range
  end.
Fixpoint exec_sops (fuel : nat) (h : node) (os : list sop) : SM unit :=
  match os with
  | [] => ret tt
  | o :: os => exec_sop fuel h o ;;; exec_sops fuel h os
  end.

(** ** Comparison predicates *)
Definition strict_weak_order {V} (lt : V -> V -> bool) : Prop :=
  (forall a, lt a a = false) /\
  (forall a b c, lt a b = true -> lt b c = true -> lt a c = true) /\
  (forall a b c, lt b a = false -> lt c b = false -> lt c a = false).

(** [l] is sorted: no element is less than one before it *)
Definition sorted_by {V} (val : node -> option V) (lt : V -> V -> bool) (l : list node) : Prop :=
  StronglySorted (fun a b => forall va vb, val a = Some va -> val b = Some vb -> lt vb va = false) l.

Definition all_vals {V} (val : node -> option V) (l : list node) : Prop :=
  Forall (fun x => exists v, val x = Some v) l.

(** the exception that is propagating was thrown by the last call to user code *)
Definition thrown (throws : nat -> bool) (s : sst) : Prop :=
  exists k, tk s = S k /\ throws k = true.

(** ** Operations that call user code, on lists *)
Section SpecUser.
Variable V : Type.
Variable val : node -> option V.

(** predicate of the user on the value held by a node *)
Definition on1 (pred : V -> bool) (x : node) : bool :=
  match val x with Some v => pred v | None => false end.
Definition on2 (rel : V -> V -> bool) (x y : node) : bool :=
  match val x, val y with Some v, Some w => rel v w | _, _ => false end.

(** [a] is kept; later elements [x] with [rel x a] are dropped, [a] being the
    last element kept *)
Fixpoint uniq_from (rel : node -> node -> bool) (a : node) (l : list node) : list node :=
  match l with
  | [] => []
  | x :: l' => if rel x a then uniq_from rel a l' else x :: uniq_from rel x l'
  end.
Definition uniq (rel : node -> node -> bool) (l : list node) : list node :=
  match l with
  | [] => []
  | a :: l' => a :: uniq_from rel a l'
  end.

(** stability: elements equivalent to any given value appear in [r] in the
    same order as in [l] (and [r] has no others) *)
Definition equivalent (lt : V -> V -> bool) (v : V) (x : node) : bool :=
  match val x with Some w => (negb (lt v w) && negb (lt w v))%bool | None => false end.
Definition stable_of (lt : V -> V -> bool) (l r : list node) : Prop :=
  forall v, filter (equivalent lt v) r = filter (equivalent lt v) l.
End SpecUser.
