(** Model of the locks of safe mode: threads which use safe iterators at the same time.
    Source: /repo/include/boost/multi_index/detail/safe_mode.hpp:413-440,616-690,
    /repo/include/boost/multi_index/detail/scoped_bilock.hpp.

    The iterators attached to a container are linked from its header; how they are linked is modelled in Safe.v, here the
    chain of a container is the list of their addresses.  A mutex is known by the address of the container it is a member of.
    An operation starts once the thread has read the member cont of its iterator, which it does without a lock; so the
    container is a parameter of the operation.  lightweight_mutex is a mutex which cannot be locked twice, and unlocking
    it when it is not locked by the same thread is undefined behaviour. Memory is sequentially consistent. *)
From Coq Require Import Arith Bool List Lia.
Import ListNotations.
Set Implicit Arguments.

Definition chains := nat -> list nat.
Definition set_chain (s : chains) (c : nat) (l : list nat) : chains := fun d => if d =? c then l else s d.

(** what threads do, step by step.  A thread has two registers which hold chains it has gone along *)
Inductive ins :=
| Lock (m : nat) | Unlock (m : nat)
| Read (c : nat)             (* go along the chain of c *)
| Push (i c : nat)           (* header.next=this *)
| Cut (i c : nat)            (* prev_->next=next, of the iterator i *)
| Cut_same (i c : nat)       (* prev_->next=next_->next, of those equivalent to i *)
| Read2 (c : nat)            (* next_->next=cont_->header.next *)
| Prepend (c : nat).         (* cont_->header.next=next_ *)
Definition regs := (list nat * list nat)%type.

Inductive op := Attach (i c : nat) | Detach (i c : nat) | Equivalent (i c : nat) | Transfer (i c d : nat).

(** scoped_bilock(mutex1,mutex2), scoped_bilock.hpp:37-44 *)
Definition bilock (m1 m2 : nat) : list ins :=
  let lt := m1 <? m2 in
  Lock (if lt then m1 else m2) :: if m1 =? m2 then [] else [Lock (if lt then m2 else m1)].
(** ~scoped_bilock, scoped_bilock.hpp:46-51 *)
Definition biunlock (m1 m2 : nat) : list ins :=
  let lt := m1 <? m2 in
  Unlock (if lt then m1 else m2) :: if m1 =? m2 then [] else [Unlock (if lt then m2 else m1)].
(** attach, safe_mode.hpp:413-424; detach, 426-440; detach_equivalent_iterators, 621-643, but for the call of detach in its end
    which is another operation; transfer_equivalent_iterators, 656-687.  Indices call the latter for two different containers only; for
    one and the same its loop would not end, which is not modelled *)
Definition code (o : op) : list ins :=
  match o with
  | Attach i c => [Lock c; Read c; Push i c; Unlock c]
  | Detach i c => [Lock c; Read c; Cut i c; Unlock c]
  | Equivalent i c => [Lock c; Read c; Cut_same i c; Unlock c]
  | Transfer i c d => bilock c d ++ [Read c; Cut_same i c; Read2 d; Prepend d] ++ biunlock c d
  end.

Section Same.
(** [*next_==it], of iterators at these addresses *)
Variable same : nat -> nat -> bool.
Definition moves (i j : nat) : bool := negb (j =? i) && same i j.

(** what a step does to the registers and chains; the loop of detach, 435, goes beyond the end of a chain without the iterator: undefined *)
Definition exec (x : ins) (r : regs) (s : chains) : option (regs * chains) :=
  match x with
  | Lock _ | Unlock _ => Some (r, s)
  | Read c => Some ((s c, snd r), s)
  | Push i c => Some (r, set_chain s c (i :: fst r))
  | Cut i c => if in_dec Nat.eq_dec i (fst r) then Some (r, set_chain s c (remove Nat.eq_dec i (fst r))) else None
  | Cut_same i c => Some ((filter (moves i) (fst r), snd r), set_chain s c (filter (fun j => negb (moves i j)) (fst r)))
  | Read2 c => Some ((fst r, s c), s)
  | Prepend c => Some (r, set_chain s c (rev (fst r) ++ snd r))
  end.

(** a thread: the operations it has yet to do, the first of which it has begun if [pc] is not 0 *)
Record thread := mkT { todo : list op; pc : nat; reg : regs }.
Record cfg := mkC { thr : nat -> thread; own : nat -> option nat; ch : chains }.
Definition r0 : regs := ([], []).
Definition next_ins (t : thread) : option ins :=
  match todo t with [] => None | o :: _ => nth_error (code o) (pc t) end.
Definition advance (t : thread) (r : regs) : thread :=
  match todo t with
  | [] => t
  | o :: os => if S (pc t) =? length (code o) then mkT os 0 r0 else mkT (o :: os) (S (pc t)) r
  end.
Definition put {A} (f : nat -> A) (k : nat) (v : A) : nat -> A := fun j => if j =? k then v else f j.

(** one thread makes one step *)
Inductive step : cfg -> cfg -> Prop :=
| step_lock : forall g t m, next_ins (thr g t) = Some (Lock m) -> own g m = None ->
    step g (mkC (put (thr g) t (advance (thr g t) (reg (thr g t)))) (put (own g) m (Some t)) (ch g))
| step_unlock : forall g t m, next_ins (thr g t) = Some (Unlock m) -> own g m = Some t ->
    step g (mkC (put (thr g) t (advance (thr g t) (reg (thr g t)))) (put (own g) m None) (ch g))
| step_access : forall g t x r s, next_ins (thr g t) = Some x ->
    (forall m, x <> Lock m) -> (forall m, x <> Unlock m) -> exec x (reg (thr g t)) (ch g) = Some (r, s) ->
    step g (mkC (put (thr g) t (advance (thr g t) r)) (own g) s).
(** a thread is about to do something undefined *)
Definition wrong (g : cfg) (t : nat) : Prop :=
  exists x, next_ins (thr g t) = Some x /\
    ((exists m, x = Unlock m /\ own g m <> Some t) \/ exec x (reg (thr g t)) (ch g) = None).
Inductive reach (g0 : cfg) : cfg -> Prop :=
| reach_refl : reach g0 g0
| reach_step : forall g g', reach g0 g -> step g g' -> reach g0 g'.
(** threads about to start *)
Definition start (p : nat -> list op) (s : chains) : cfg := mkC (fun t => mkT (p t) 0 r0) (fun _ => None) s.
End Same.
