(** Model of the operations of multi_index_container over its stack of indices.
    Source: /repo/include/boost/multi_index_container.hpp; node handles:
    /repo/include/boost/multi_index/detail/node_handle.hpp *)
From Verif Require Import Prelude Layer.
Set Implicit Arguments.

Section Container.
Variable V : Type.
Variable throws : nat -> bool.
Variable pick : list node -> node.
Variable hd : node.      (* header() *)
Variable L : Layer V.    (* super *)
Notation CM := (M (St L)).

(** ++node_count, --node_count *)
Definition inc : CM unit := n <- size L ;; set_count L (S n).
Definition dec : CM unit := n <- size L ;; set_count L (n - 1).

(** if(res==x){++node_count;return (res,true);}else return (res,false);  697-703 *)
Definition conclude (res x : node) : CM (node * bool) :=
  if res =? x then inc ;;; ret (res, true) else ret (res, false).

(** insert_, multi_index_container.hpp:690-713 and, with a position, 816-843.  The overload for
    rvalues differs in the constructor called only. *)
Definition c_insert (v : V) (hint : option node) : CM (node * bool) :=
  r <- l_insert L v hint null Lvalue ;; let (res, x) := r : node * node in conclude res x.

(** emplace_, 784-814; emplace_hint_, 905-935; the same code is insert_ref_, 715-743 and 845-873.
    [v] is the value built from the arguments. *)
Definition c_emplace (v : V) (hint : option node) : CM (node * bool) :=
  x <- basM L (allocate_node throws pick) ;;
  try_catch
    (basM L (construct_value throws x v) ;;;
     try_catch
       (w <- basM L (value x) ;;
        r <- l_insert L w hint x Emplaced ;;
        let (res, x) := r : node * node in
        if res =? x then inc ;;; ret (res, true)
        else basM L (delete_node x) ;;; ret (res, false))
       (basM L (destroy_value x) ;;; throw))
    (basM L (deallocate_node x) ;;; throw).

(** insert_nh_, 755-769 and 885-903.  A node handle is the node it owns, if any; the new state
    of the handle is returned. *)
Definition c_insert_nh (nh : option node) (hint : option node) : CM (node * bool * option node) :=
  match nh with
  | None => ret (hd, false, None)
  | Some x =>
    v <- basM L (value x) ;;
    r <- l_insert L v hint x Emplaced ;;
    let (res, x) := r : node * node in
    if res =? x then inc ;;; ret (res, true, None) else ret (res, false, nh)
  end.

(** ~node_handle, delete_node; node_handle.hpp:67-73,193-204 *)
Definition nh_destroy (nh : option node) : CM unit :=
  match nh with None => ret tt | Some x => basM L (delete_node x) end.

(** extract_, 937-942; the result is owned by a handle *)
Definition c_extract (x : node) : CM (option node) := dec ;;; l_extract L x ;;; ret (Some x).

(** erase_, 951-956 *)
Definition c_erase (x : node) : CM unit := dec ;;; l_extract L x ;;; basM L (delete_node x).

(** clear_, 969-974 *)
Definition c_clear : CM unit := l_delete_all L ;;; l_clear L ;;; set_count L 0.

(** ~multi_index_container, 337-340, followed by ~header_holder, header_holder.hpp:38 *)
Definition c_destroy : CM unit := l_delete_all L ;;; basM L (deallocate_node hd).

(** replace_, replace_rv_; 1021-1029 *)
Definition c_replace (v : V) (x : node) : CM bool := l_replace L v x.

(** modify_, 1031-1058 *)
Definition c_modify (f fx : V -> V) (x : node) : CM bool :=
  try_catch (basM L (apply_mod throws f fx x)) (c_erase x ;;; throw) ;;;
  try_catch
    (b <- l_modify L x ;;
     if b : bool then ret true
     else basM L (delete_node x) ;;; dec ;;; ret false)
    (basM L (delete_node x) ;;; dec ;;; throw).

(** modify_ with rollback, 1060-1103.  BOOST_RETHROW at line 1080 is inside the inner
    BOOST_TRY block, so it is caught by the BOOST_CATCH(...) of lines 1082-1085. *)
Definition c_modify_rb (f fx g gx : V -> V) (x : node) : CM bool :=
  try_catch (basM L (apply_mod throws f fx x)) (c_erase x ;;; throw) ;;;
  b <- try_catch (l_modify_rb L x)
         (try_catch
            (basM L (apply_mod throws g gx x) ;;;
             c <- l_check_rb L x ;;
             (if c : bool then ret tt else c_erase x) ;;;
             throw)
            (c_erase x ;;; throw)) ;;
  try_catch
    (if b : bool then ret true
     else
       basM L (apply_mod throws g gx x) ;;;
       c <- l_check_rb L x ;;
       (if c : bool then ret tt else c_erase x) ;;;
       ret false)
    (c_erase x ;;; throw).

(** range constructor, 217-254, and initializer_list constructor, 257-281;
    [next] is ++ of the first index. *)
Fixpoint c_insert_range (next : node -> CM node) (vs : list V) (hint : node) : CM unit :=
  match vs with
  | [] => ret tt
  | v :: vs =>
    r <- c_insert v (Some hint) ;;
    h <- next (fst r) ;;
    c_insert_range next vs h
  end.
Definition c_construct_range (next : node -> CM node) (vs : list V) : CM unit :=
  try_catch (c_insert_range next vs hd) (c_clear ;;; throw).

(** ** Transfer from another container.  [L] is a stack over [container_world] *)

(** transfer_, 771-782 *)
Definition c_transfer (n : node) : CM (node * bool) :=
  v <- basM L (value n) ;;
  r <- l_insert L v None n Transfer ;;
  let (res, n) := r : node * node in conclude res n.

(** transfer_range_, 976-985.  [next] is ++ of the iterators of the source index. *)
Fixpoint c_transfer_range (next : node -> CM node) (fuel : nat) (first last : node) : CM unit :=
  match fuel with
  | O => ub
  | S f =>
    if first =? last then ret tt
    else
      n <- next first ;;
      c_transfer first ;;;
      c_transfer_range next f n last
  end.
End Container.
