(** Common structure of sequenced and random access indices over their super layer: neither
    imposes anything on the values, and both keep the elements in an order of their own.
    Sources (all under /repo/include/boost/multi_index):
      sequenced_index.hpp, random_access_index.hpp *)
From Verif Require Import Prelude Layer.
Set Implicit Arguments.

Section Pos.
Variable V : Type.
Variable L : Layer V.                     (* super *)
Variable T : Type.                        (* own part of the state *)
Variable prep : M (T * St L) unit.        (* ptrs.room_for_one(), nothing for sequenced indices *)
Variable add : node -> M T unit.          (* link(x), ptrs.push_back(x) *)
Variable del : node -> M T unit.          (* unlink(x), ptrs.erase(x) *)
Variable walk : M (T * St L) unit.        (* body of delete_all_nodes_ *)
Variable wipe : M T unit.                 (* empty_initialize(), ptrs.clear() *)
Notation PM := (M (T * St L)).

(** insert_: sequenced_index.hpp:739-756, random_access_index.hpp:826-845 *)
Definition p_insert_ (v : V) (hint : option node) (x : node) (var : variant) : PM (node * node) :=
  prep ;;;
  rx <- supM (l_insert L v hint x var) ;;
  let (res, x) := rx : node * node in
  (if res =? x then ownM (add x) else ret tt) ;;;
  ret (res, x).
(** extract_: sequenced_index.hpp:758-767, random_access_index.hpp:847-856 *)
Definition p_extract_ (x : node) : PM unit := ownM (del x) ;;; supM (l_extract L x).
(** clear_: sequenced_index.hpp:779-787, random_access_index.hpp:866-874 *)
Definition p_clear_ : PM unit := supM (l_clear L) ;;; ownM wipe.
(** replace_: sequenced_index.hpp:809-813, random_access_index.hpp:900-904 *)
Definition p_replace_ (v : V) (x : node) : PM bool := supM (l_replace L v x).
(** modify_: sequenced_index.hpp:815-839, random_access_index.hpp:906-930 *)
Definition p_modify_ (x : node) : PM bool :=
  try_catch
    (b <- supM (l_modify L x) ;;
     if b : bool then ret true else ownM (del x) ;;; ret false)
    (ownM (del x) ;;; throw).
(** modify_rollback_, check_rollback_: sequenced_index.hpp:841-849,
    random_access_index.hpp:932-940 *)
Definition p_modify_rb_ (x : node) : PM bool := supM (l_modify_rb L x).
Definition p_check_rb_ (x : node) : PM bool := supM (l_check_rb L x).

Definition positional : Layer V :=
  @mkL V (T * St L)
    (fun s => bget L (snd s)) (fun b s => (fst s, bset L b (snd s)))
    (fun s => cget L (snd s)) (fun n s => (fst s, cset L n (snd s)))
    p_insert_ p_extract_ walk p_clear_ p_replace_ p_modify_ p_modify_rb_ p_check_rb_.
End Pos.
Arguments p_insert_ {V} L {T} prep add v hint x var.
Arguments p_extract_ {V} L {T} del x.
Arguments p_clear_ {V} L {T} wipe.
Arguments p_replace_ {V} L {T} v x.
Arguments p_modify_ {V} L {T} del x.
Arguments p_modify_rb_ {V} L {T} x.
Arguments p_check_rb_ {V} L {T} x.
Arguments positional {V} L {T} prep add del walk wipe.
