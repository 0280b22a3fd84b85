(** Model of node handles as objects: their pointer to a node, and storage in which an allocator is constructed and destroyed by hand.
    Source: /repo/include/boost/multi_index/detail/node_handle.hpp.  (Alloc.v has the memory of containers and node handles; there
    a handle has an allocator if and only if it has a node.) *)
From Coq Require Import Arith Bool List Lia.
Import ListNotations.
Set Implicit Arguments.

(** node_handle, 206-210: node (0 is null); space, with the allocator object alive in it.  Allocators with the same number are equal *)
Record hobj := mkH { hnode : nat; space : option nat }.
(** the node handles alive, by address; the nodes allocated, with their allocator; how many allocator objects were never destroyed *)
Record hst := mkHS { hs : nat -> option hobj; nodes : nat -> option nat; lost : nat }.
(** None: undefined behaviour *)
Definition HM (A : Type) := hst -> option (A * hst).
Definition hret {A} (a : A) : HM A := fun s => Some (a, s).
Definition hbind {A B} (m : HM A) (f : A -> HM B) : HM B := fun s => match m s with Some (a, s) => f a s | None => None end.
Notation "x <~ m ;; k" := (hbind m (fun x => k)) (at level 61, m at next level, right associativity).
Notation "m ~~ k" := (hbind m (fun _ => k)) (at level 61, right associativity).
Definition upd {A} (f : nat -> A) (k : nat) (v : A) : nat -> A := fun j => if j =? k then v else f j.

Definition obj (h : nat) : HM hobj := fun s => match hs s h with Some o => Some (o, s) | None => None end.
Definition set_obj (h : nat) (o : hobj) : HM unit := fun s => Some (tt, mkHS (upd (hs s) h (Some o)) (nodes s) (lost s)).
Definition empty (h : nat) : HM bool := o <~ obj h ;; hret (hnode o =? 0).
Definition node_of (h : nat) : HM nat := o <~ obj h ;; hret (hnode o).
Definition set_node (h n : nat) : HM unit := o <~ obj h ;; set_obj h (mkH n (space o)).
(** *allocator_ptr(): there has to be an object *)
Definition allocator (h : nat) : HM nat := o <~ obj h ;; match space o with Some a => hret a | None => fun _ => None end.
(** ::new(allocator_ptr()) allocator_type(...): an object that was there is lost *)
Definition construct_allocator (h a : nat) : HM unit :=
  o <~ obj h ;; set_obj h (mkH (hnode o) (Some a)) ~~
  fun s => Some (tt, mkHS (hs s) (nodes s) (match space o with Some _ => S (lost s) | None => lost s end)).
(** destroy_allocator, 191 *)
Definition destroy_allocator (h : nat) : HM unit :=
  o <~ obj h ;; match space o with Some _ => set_obj h (mkH (hnode o) None) | None => fun _ => None end.
(** move_construct_allocator, 180-184 *)
Definition move_construct_allocator (h x : nat) : HM unit := a <~ allocator x ;; construct_allocator h a.
(** move_assign_allocator, 186-189 *)
Definition assign_allocator (h a : nat) : HM unit := _ <~ allocator h ;; o <~ obj h ;; set_obj h (mkH (hnode o) (Some a)).
Definition move_assign_allocator (h x : nat) : HM unit := a <~ allocator x ;; assign_allocator h a.
(** delete_node, 193-204: the node has to be allocated by an equal allocator *)
Definition delete_node (h : nat) : HM unit :=
  a <~ allocator h ;; n <~ node_of h ;;
  fun s => match nodes s n with
           | Some b => if a =? b then Some (tt, mkHS (hs s) (upd (nodes s) n None) (lost s)) else None
           | None => None
           end.
(** storage of a handle that begins or ends *)
Definition fresh (h : nat) (o : hobj) : HM unit := fun s => match hs s h with Some _ => None | None => set_obj h o s end.
Definition gone (h : nat) : HM unit :=
  o <~ obj h ;; fun s => Some (tt, mkHS (upd (hs s) h None) (nodes s) (match space o with Some _ => S (lost s) | None => lost s end)).

Section Traits.
(** propagate_on_container_move_assignment, propagate_on_container_swap *)
Variables pocma pocs : bool.

(** node_handle(), 56 *)
Definition make (h : nat) : HM unit := fresh h (mkH 0 None).
(** node_handle(node_,al), 153-156 *)
Definition make_node (h n a : nat) : HM unit := fresh h (mkH n None) ~~ construct_allocator h a.
(** node_handle(node_handle&&), 58-65 *)
Definition move_construct (h x : nat) : HM unit :=
  n <~ node_of x ;; fresh h (mkH n None) ~~
  e <~ empty x ;; if (e : bool) then hret tt else move_construct_allocator h x ~~ destroy_allocator x ~~ set_node x 0.
(** ~node_handle, 67-73 *)
Definition destroy (h : nat) : HM unit :=
  e <~ empty h ;; (if (e : bool) then hret tt else delete_node h ~~ destroy_allocator h) ~~ gone h.
(** operator=, 75-99 *)
Definition assign (h x : nat) : HM unit :=
  if h =? x then hret tt
  else
    e <~ empty h ;; f <~ empty x ;;
    (if negb e then
       delete_node h ~~
       if negb f then (if pocma then move_assign_allocator h x else hret tt) ~~ destroy_allocator x
       else destroy_allocator h
     else if negb f then move_construct_allocator h x ~~ destroy_allocator x
     else hret tt) ~~
    n <~ node_of x ;; set_node h n ~~ set_node x 0.
(** swap, 116-139 *)
Definition swap (h x : nat) : HM unit :=
  e <~ empty h ;; f <~ empty x ;;
  (if negb e then
     if negb f then
       (if pocs then a <~ allocator h ;; b <~ allocator x ;; assign_allocator h b ~~ assign_allocator x a else hret tt)
     else move_construct_allocator x h ~~ destroy_allocator h
   else if negb f then move_construct_allocator h x ~~ destroy_allocator x
   else hret tt) ~~
  n <~ node_of h ;; m <~ node_of x ;; set_node h m ~~ set_node x n.
(** release_node, 158-164: the node belongs to a container from now on *)
Definition release (h : nat) : HM unit :=
  e <~ empty h ;; if (e : bool) then hret tt else set_node h 0 ~~ destroy_allocator h.

(** a program with node handles; [Extract h n a] makes a handle of a node n allocated by a which a container gave up *)
Inductive hop := Make (h : nat) | Extract (h n a : nat) | Move (h x : nat) | Assign (h x : nat) | Swap (h x : nat) | Release (h : nat) | Destroy (h : nat).
Definition run1 (o : hop) : HM unit :=
  match o with
  | Make h => make h
  | Extract h n a => (fun s => Some (tt, mkHS (hs s) (Handle.upd (nodes s) n (Some a)) (lost s))) ~~ make_node h n a
  | Move h x => move_construct h x
  | Assign h x => assign h x
  | Swap h x => swap h x
  | Release h => release h
  | Destroy h => destroy h
  end.
Fixpoint run (l : list hop) : HM unit := match l with [] => hret tt | o :: l => run1 o ~~ run l end.
Definition start : hst := mkHS (fun _ => None) (fun _ => None) 0.
End Traits.
