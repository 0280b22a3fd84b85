(** What an ordered index is supposed to do, in terms of the sequence of its elements. *)
From Verif Require Import Prelude Layer.
Set Implicit Arguments.

(** strict weak ordering, as required of Compare *)
Record swo {K} (lt : K -> K -> bool) : Prop := mkSWO {
  w_irr : forall a, lt a a = false;
  w_trans : forall a b c, lt a b = true -> lt b c = true -> lt a c = true;
  w_weak : forall a b c, lt a b = true -> lt a c = true \/ lt c b = true }.

Section Spec.
Variables V K : Type.
Variable key : V -> K.
Variable lt : K -> K -> bool.
Variable uniq : bool.
Variable hd : node.   (* end() *)

(** [a] may come before [b] *)
Definition rel (a b : K) : bool := if uniq then lt a b else negb (lt b a).

Definition sorted (val : node -> V) (l : list node) : Prop :=
  StronglySorted (fun x y => rel (key (val x)) (key (val y)) = true) l.

(** an element with key [k] may be put between [l1] and [l2] *)
Definition adm (val : node -> V) (k : K) (l1 l2 : list node) : Prop :=
  Forall (fun y => rel (key (val y)) k = true) l1 /\ Forall (fun y => rel k (key (val y)) = true) l2.
(** and this is the last such place *)
Definition last_adm (val : node -> V) (k : K) (l1 l2 : list node) : Prop :=
  Forall (fun y => rel (key (val y)) k = true) l1 /\ Forall (fun y => lt k (key (val y)) = true) l2.

Definition dist (a b : nat) : nat := (a - b) + (b - a).

(** [l'] is [l] with [x] inserted: at the last admissible place, or (with a hint [p]) at
    an admissible place as close as possible to the place right before [p] *)
Definition o_ins (val : node -> V) (hint : option node) (l : list node) (x : node) (l' : list node) : Prop :=
  exists l1 l2, l = l1 ++ l2 /\ l' = l1 ++ x :: l2 /\
    match hint with
    | None => last_adm val (key (val x)) l1 l2
    | Some p =>
      adm val (key (val x)) l1 l2 /\
      exists h1 h2, l = h1 ++ h2 /\ p = List.hd hd h2 /\
        forall m1 m2, l = m1 ++ m2 -> adm val (key (val x)) m1 m2 ->
          dist (length l1) (length h1) <= dist (length m1) (length h1)
    end.

(** [l'] is [l] after a change of the value of [x]: nothing moves if the order is still
    right; otherwise [x], and nothing else, moves to where it would be inserted *)
Definition o_mov (val : node -> V) (x : node) (l l' : list node) : Prop :=
  remove Nat.eq_dec x l' = remove Nat.eq_dec x l /\ Permutation l l' /\
  (sorted val l -> l' = l) /\
  (~ sorted val l -> o_ins val None (remove Nat.eq_dec x l) x l').

Definition o_conf (v w : V) : Prop :=
  uniq = true /\ lt (key v) (key w) = false /\ lt (key w) (key v) = false.

Definition ord_kind : kind V :=
  @mkK V (list node) (fun l => l) sorted (fun _ => eq) (remove Nat.eq_dec) o_ins o_mov o_conf.

(** ** Lookup *)

(** the first element satisfying [p], or end() *)
Definition first (p : node -> bool) (l : list node) : node :=
  match List.find p l with Some x => x | None => hd end.

(** a predicate is monotone along [l] if the elements satisfying it form a suffix *)
Definition mono (p : node -> bool) (l : list node) : Prop :=
  StronglySorted (fun x y => p x = true -> p y = true) l.

(** [below] and [above] tell on which side of the elements looked for an element is *)
Record cut (below above : node -> bool) (l : list node) : Prop := mkCut {
  c_below : mono (fun x => negb (below x)) l;
  c_above : mono above l;
  c_excl : forall x, In x l -> below x = true -> above x = false }.

(** the position of that element: the number of elements before it *)
Fixpoint position (p : node -> bool) (l : list node) : nat :=
  match l with
  | [] => 0
  | x :: l => if p x then 0 else S (position p l)
  end.

(** number of elements satisfying [p] *)
Definition num (p : node -> bool) (l : list node) : nat := length (filter p l).
End Spec.
