(** Model of the red-black tree under ordered and ranked indices, at pointer level.
    Sources (all under /repo/include/boost/multi_index):
      detail/ord_index_node.hpp, ranked_index.hpp (rank_policy) *)
From Verif Require Import Prelude.

(** ord_index_node.hpp:64 (ordered_index_color) *)
Inductive color := Red | Black.
Definition is_red (c : color) : bool := match c with Red => true | Black => false end.
Definition is_black (c : color) : bool := negb (is_red c).

(** ord_index_node.hpp:65 (ordered_index_side) *)
Inductive side := to_left | to_right.

(** Link fields of a node: ord_index_node.hpp:85-111 (left_, right_, parent_, color_) and
    ranked_index.hpp:30-35 (size).  The compressed representation of parent and colour
    (ord_index_node.hpp:113-222) is modelled separately, in Word.v.  [cs] is unused when the
    index is not ranked. *)
Record cell := mk { cl : node; cr : node; cp : node; cc : color; cs : nat }.

(** Memory: a node with [None] is not allocated. *)
Definition heap := node -> option cell.
Definition HM := M heap.

(** Field reads and writes; ord_index_node.hpp:97-104, ranked_index.hpp:34 *)
Definition rd {A} (f : cell -> A) (x : node) : HM A :=
  fun h => match h x with Some c => Ret (f c) h | None => UB end.
Definition wr (f : cell -> cell) (x : node) : HM unit :=
  fun h => match h x with Some c => Ret tt (upd h x (Some (f c))) | None => UB end.
Definition gl := rd cl.
Definition gr := rd cr.
Definition gp := rd cp.
Definition gc := rd cc.
Definition gs := rd cs.
Definition sl (x v : node) := wr (fun c => mk v (cr c) (cp c) (cc c) (cs c)) x.
Definition sr (x v : node) := wr (fun c => mk (cl c) v (cp c) (cc c) (cs c)) x.
Definition sp (x v : node) := wr (fun c => mk (cl c) (cr c) v (cc c) (cs c)) x.
Definition sc (x : node) (v : color) := wr (fun c => mk (cl c) (cr c) (cp c) v (cs c)) x.
Definition ss (x : node) (v : nat) := wr (fun c => mk (cl c) (cr c) (cp c) (cc c) v) x.

Section Tree.
(** [rk]: AugmentPolicy is rank_policy (ranked_index.hpp:279-342), otherwise
    null_augment_policy (ordered_index.hpp:28-54), all of whose operations are empty.
    [hd]: the header node; the [parent_ref root], [leftmost] and [rightmost] references
    passed around by the code are header()->parent(), header()->left() and
    header()->right() at every call site in ord_index_impl.hpp, so they are accessed
    through the header here. *)
Variable rk : bool.
Variable hd : node.

(** ** rank_policy *)

(** ranked_node_size, rnk_index_ops.hpp:38-43 *)
Definition node_size (x : node) : HM nat := if x =? null then ret 0 else gs x.

(** while(x!=root){x=x->parent();++(x->size);} of rank_policy::add, ranked_index.hpp:299-302 *)
Fixpoint add_loop (fuel : nat) (x root : node) : HM unit :=
  match fuel with
  | O => ub
  | S f =>
    if x =? root then ret tt
    else x <- gp x ;; n <- gs x ;; ss x (S n) ;;; add_loop f x root
  end.
(** ranked_index.hpp:295-303 *)
Definition rank_add (fuel : nat) (x root : node) : HM unit :=
  if rk then ss x 1 ;;; add_loop fuel x root else ret tt.

(** ranked_index.hpp:305-312; the unsigned decrement of a zero size does not occur, and is
    modelled by truncated subtraction *)
Fixpoint remove_loop (fuel : nat) (x root : node) : HM unit :=
  match fuel with
  | O => ub
  | S f =>
    if x =? root then ret tt
    else x <- gp x ;; n <- gs x ;; ss x (n - 1) ;;; remove_loop f x root
  end.
Definition rank_remove (fuel : nat) (x root : node) : HM unit :=
  if rk then remove_loop fuel x root else ret tt.

(** ranked_index.hpp:314-318 *)
Definition rank_copy (x y : node) : HM unit :=
  if rk then n <- gs x ;; ss y n else ret tt.

(** ranked_index.hpp:320-331: rotate_left and rotate_right *)
Definition rank_rotate (x y : node) : HM unit :=
  if rk then
    n <- gs x ;; ss y n ;;;
    l <- gl x ;; a <- node_size l ;;
    r <- gr x ;; b <- node_size r ;;
    ss x (a + b + 1)
  else ret tt.

(** ** Traversal *)

(** ord_index_node.hpp:318-322 (minimum), also the loop in 270 and 430 *)
Fixpoint minimum (fuel : nat) (x : node) : HM node :=
  match fuel with
  | O => ub
  | S f => l <- gl x ;; if l =? null then ret x else minimum f l
  end.
(** ord_index_node.hpp:324-328 (maximum), also the loop in 289 *)
Fixpoint maximum (fuel : nat) (x : node) : HM node :=
  match fuel with
  | O => ub
  | S f => r <- gr x ;; if r =? null then ret x else maximum f r
  end.

(** ord_index_node.hpp:274-278 *)
Fixpoint inc_up (fuel : nat) (x y : node) : HM node :=
  match fuel with
  | O => ub
  | S f =>
    yr <- gr y ;;
    if x =? yr then yp <- gp y ;; inc_up f y yp
    else xr <- gr x ;; ret (if xr =? y then x else y)
  end.
(** ord_index_node.hpp:266-280 *)
Definition increment (fuel : nat) (x : node) : HM node :=
  r <- gr x ;;
  if negb (r =? null) then minimum fuel r
  else y <- gp x ;; inc_up fuel x y.

(** ord_index_node.hpp:293-297 *)
Fixpoint dec_up (fuel : nat) (x y : node) : HM node :=
  match fuel with
  | O => ub
  | S f =>
    yl <- gl y ;;
    if x =? yl then yp <- gp y ;; dec_up f y yp else ret y
  end.
(** x->color()==red&&x->parent()->parent()==x; ord_index_node.hpp:284 *)
Definition is_header (x : node) : HM bool :=
  c <- gc x ;;
  if is_red c then p <- gp x ;; pp <- gp p ;; ret (pp =? x) else ret false.
(** ord_index_node.hpp:282-299 *)
Definition decrement (fuel : nat) (x : node) : HM node :=
  b <- is_header x ;;
  if b then gr x
  else
    l <- gl x ;;
    if negb (l =? null) then maximum fuel l
    else y <- gp x ;; dec_up fuel x y.

(** ** Rotations *)

(** ord_index_node.hpp:303-316 *)
Definition rotate_left (x : node) : HM unit :=
  y <- gr x ;;
  yl <- gl y ;;
  sr x yl ;;;
  yl <- gl y ;;
  (if negb (yl =? null) then sp yl x else ret tt) ;;;
  xp <- gp x ;;
  sp y xp ;;;
  root <- gp hd ;;
  (if x =? root then sp hd y
   else xp <- gp x ;; xpl <- gl xp ;;
        if x =? xpl then sl xp y else sr xp y) ;;;
  sl y x ;;;
  sp x y ;;;
  rank_rotate x y.

(** ord_index_node.hpp:330-343 *)
Definition rotate_right (x : node) : HM unit :=
  y <- gl x ;;
  yr <- gr y ;;
  sl x yr ;;;
  yr <- gr y ;;
  (if negb (yr =? null) then sp yr x else ret tt) ;;;
  xp <- gp x ;;
  sp y xp ;;;
  root <- gp hd ;;
  (if x =? root then sp hd y
   else xp <- gp x ;; xpr <- gr xp ;;
        if x =? xpr then sr xp y else sl xp y) ;;;
  sr y x ;;;
  sp x y ;;;
  rank_rotate x y.

(** ** Insertion *)

(** y!=pointer(0)&&y->color()==red *)
Definition nonnull_red (y : node) : HM bool :=
  if y =? null then ret false else c <- gc y ;; ret (is_red c).
(** y==pointer(0)||y->color()==black *)
Definition null_or_black (y : node) : HM bool :=
  if y =? null then ret true else c <- gc y ;; ret (is_black c).
(** if(y!=pointer(0))y->color()=black *)
Definition blacken (y : node) : HM unit :=
  if y =? null then ret tt else sc y Black.

(** Body of the loop, case of the uncle being red; ord_index_node.hpp:352-355 = 370-373 *)
Definition reb_recolor (x y : node) : HM node :=
  xp <- gp x ;; sc xp Black ;;;
  sc y Black ;;;
  xp <- gp x ;; xpp <- gp xp ;; sc xpp Red ;;;
  xp <- gp x ;; gp xp.

(** ord_index_node.hpp:358-364 *)
Definition reb_left (x : node) : HM node :=
  xp <- gp x ;; xpr <- gr xp ;;
  x <- (if x =? xpr then rotate_left xp ;;; ret xp else ret x) ;;
  xp <- gp x ;; sc xp Black ;;;
  xp <- gp x ;; xpp <- gp xp ;; sc xpp Red ;;;
  xp <- gp x ;; xpp <- gp xp ;; rotate_right xpp ;;;
  ret x.
(** ord_index_node.hpp:376-382 *)
Definition reb_right (x : node) : HM node :=
  xp <- gp x ;; xpl <- gl xp ;;
  x <- (if x =? xpl then rotate_right xp ;;; ret xp else ret x) ;;
  xp <- gp x ;; sc xp Black ;;;
  xp <- gp x ;; xpp <- gp xp ;; sc xpp Red ;;;
  xp <- gp x ;; xpp <- gp xp ;; rotate_left xpp ;;;
  ret x.

(** ord_index_node.hpp:348-385 *)
Fixpoint reb_loop (fuel : nat) (x : node) : HM unit :=
  match fuel with
  | O => ub
  | S f =>
    root <- gp hd ;;
    if x =? root then ret tt else
    xp <- gp x ;; c <- gc xp ;;
    if negb (is_red c) then ret tt else
    xp <- gp x ;; xpp <- gp xp ;; xppl <- gl xpp ;;
    if xp =? xppl then
      y <- gr xpp ;;
      b <- nonnull_red y ;;
      x <- (if b : bool then reb_recolor x y else reb_left x) ;;
      reb_loop f x
    else
      y <- gl xpp ;;
      b <- nonnull_red y ;;
      x <- (if b : bool then reb_recolor x y else reb_right x) ;;
      reb_loop f x
  end.
(** ord_index_node.hpp:345-387 *)
Definition rebalance (fuel : nat) (x : node) : HM unit :=
  sc x Red ;;;
  reb_loop fuel x ;;;
  root <- gp hd ;; sc root Black.

(** ord_index_node.hpp:389-413 *)
Definition link (fuel : nat) (x : node) (sd : side) (position : node) : HM unit :=
  (match sd with
   | to_left =>
     sl position x ;;;
     if position =? hd then sp hd x ;;; sr hd x
     else hl <- gl hd ;; if position =? hl then sl hd x else ret tt
   | to_right =>
     sr position x ;;;
     hr <- gr hd ;; if position =? hr then sr hd x else ret tt
   end) ;;;
  sp x position ;;;
  sl x null ;;;
  sr x null ;;;
  root <- gp hd ;;
  rank_add fuel x root ;;;
  rebalance fuel x.

(** ** Extraction *)

(** Lines 496-515: [w] is black.  Returns [None] after the [break], otherwise the new
    x and x_parent.  ord_index_node.hpp:496-515 *)
Definition fix_left2 (xp w : node) : HM (option (node * node)) :=
  wl <- gl w ;; bl <- null_or_black wl ;;
  b <- (if bl : bool then wr <- gr w ;; null_or_black wr else ret false) ;;
  if b : bool then
    sc w Red ;;;
    xpp <- gp xp ;; ret (Some (xp, xpp))
  else
    wr <- gr w ;; br <- null_or_black wr ;;
    w <- (if br : bool then
            wl <- gl w ;; blacken wl ;;;
            sc w Red ;;;
            rotate_right w ;;;
            gr xp
          else ret w) ;;
    c <- gc xp ;; sc w c ;;;
    sc xp Black ;;;
    wr <- gr w ;; blacken wr ;;;
    rotate_left xp ;;;
    ret None.
(** ord_index_node.hpp:489-515 *)
Definition fix_left (xp : node) : HM (option (node * node)) :=
  w <- gr xp ;;
  c <- gc w ;;
  w <- (if is_red c then
          sc w Black ;;;
          sc xp Red ;;;
          rotate_left xp ;;;
          gr xp
        else ret w) ;;
  fix_left2 xp w.
(** ord_index_node.hpp:525-543 *)
Definition fix_right2 (xp w : node) : HM (option (node * node)) :=
  wr <- gr w ;; br <- null_or_black wr ;;
  b <- (if br : bool then wl <- gl w ;; null_or_black wl else ret false) ;;
  if b : bool then
    sc w Red ;;;
    xpp <- gp xp ;; ret (Some (xp, xpp))
  else
    wl <- gl w ;; bl <- null_or_black wl ;;
    w <- (if bl : bool then
            wr <- gr w ;; blacken wr ;;;
            sc w Red ;;;
            rotate_left w ;;;
            gl xp
          else ret w) ;;
    c <- gc xp ;; sc w c ;;;
    sc xp Black ;;;
    wl <- gl w ;; blacken wl ;;;
    rotate_right xp ;;;
    ret None.
(** ord_index_node.hpp:518-543 *)
Definition fix_right (xp : node) : HM (option (node * node)) :=
  w <- gl xp ;;
  c <- gc w ;;
  w <- (if is_red c then
          sc w Black ;;;
          sc xp Red ;;;
          rotate_right xp ;;;
          gl xp
        else ret w) ;;
  fix_right2 xp w.

(** Returns the final value of x; ord_index_node.hpp:487-545 *)
Fixpoint ext_loop (fuel : nat) (x xp : node) : HM node :=
  match fuel with
  | O => ub
  | S f =>
    root <- gp hd ;;
    b <- (if x =? root then ret false else null_or_black x) ;;
    if b : bool then
      xpl <- gl xp ;;
      r <- (if x =? xpl then fix_left xp else fix_right xp) ;;
      match r with
      | None => ret x
      | Some (x', xp') => ext_loop f x' xp'
      end
    else ret x
  end.

(** if(root==z)root=y; else if(z->parent()->left()==z)z->parent()->left()=y;
    else z->parent()->right()=y;  ord_index_node.hpp:450-452 = 462-468 *)
Definition replace_child (z y : node) : HM unit :=
  root <- gp hd ;;
  if root =? z then sp hd y
  else zp <- gp z ;; zpl <- gl zp ;; if zpl =? z then sl zp y else sr zp y.

(** Choice of y and x; ord_index_node.hpp:418-433 *)
Definition ext_choose (fuel : nat) (z : node) : HM (node * node) :=
  zl <- gl z ;;
  if zl =? null then x <- gr z ;; ret (z, x)
  else zr <- gr z ;;
       if zr =? null then x <- gl z ;; ret (z, x)
       else y <- minimum fuel zr ;; x <- gr y ;; ret (y, x).

(** Relinking when y is z's successor; returns x_parent.  ord_index_node.hpp:436-457 *)
Definition ext_splice2 (z y x : node) : HM node :=
  rank_copy z y ;;;
  zl <- gl z ;; sp zl y ;;;
  zl <- gl z ;; sl y zl ;;;
  zr <- gr z ;;
  xp <- (if negb (y =? zr) then
           xp <- gp y ;;
           (if x =? null then ret tt else yp <- gp y ;; sp x yp) ;;;
           yp <- gp y ;; sl yp x ;;;
           zr <- gr z ;; sr y zr ;;;
           zr <- gr z ;; sp zr y ;;;
           ret xp
         else ret y) ;;
  replace_child z y ;;;
  zp <- gp z ;; sp y zp ;;;
  c <- gc y ;;
  zc <- gc z ;; sc y zc ;;;
  sc z c ;;;
  ret xp.

(** Unlinking z itself; returns x_parent.  ord_index_node.hpp:460-484 *)
Definition ext_splice1 (fuel : nat) (z x : node) : HM node :=
  xp <- gp z ;;
  (if x =? null then ret tt else zp <- gp z ;; sp x zp) ;;;
  replace_child z x ;;;
  leftmost <- gl hd ;;
  (if leftmost =? z then
     zr <- gr z ;;
     if zr =? null then zp <- gp z ;; sl hd zp
     else m <- minimum fuel x ;; sl hd m
   else ret tt) ;;;
  rightmost <- gr hd ;;
  (if rightmost =? z then
     zl <- gl z ;;
     if zl =? null then zp <- gp z ;; sr hd zp
     else m <- maximum fuel x ;; sr hd m
   else ret tt) ;;;
  ret xp.

(** ord_index_node.hpp:415-549; y==z at line 486 in either case *)
Definition rebalance_for_extract (fuel : nat) (z : node) : HM node :=
  yx <- ext_choose fuel z ;;
  let (y, x) := yx : node * node in
  root <- gp hd ;;
  rank_remove fuel y root ;;;
  xp <- (if negb (y =? z) then ext_splice2 z y x else ext_splice1 fuel z x) ;;
  c <- gc z ;;
  (if is_red c then ret tt
   else x <- ext_loop fuel x xp ;; blacken x) ;;;
  ret z.

(** ord_index_node.hpp:551-560 *)
Definition restore (fuel : nat) (x position : node) : HM unit :=
  pl <- gl position ;;
  if (pl =? null) || (pl =? hd) then link fuel x to_left position
  else p <- decrement fuel position ;; link fuel x to_right p.

(** ordered_index_impl::empty_initialize, ord_index_impl.hpp:1140-1148 *)
Definition empty_initialize : HM unit :=
  sc hd Red ;;; sp hd null ;;; sl hd hd ;;; sr hd hd.

(** ordered_index_impl::delete_all_nodes, ord_index_impl.hpp:1301-1308; [final_delete_node_]
    (multi_index_container.hpp:958-962) is the deallocation of the node *)
Definition free (x : node) : HM unit :=
  fun h => match h x with Some _ => Ret tt (upd h x None) | None => UB end.
Fixpoint delete_all_nodes (fuel : nat) (x : node) : HM unit :=
  match fuel with
  | O => ub
  | S f =>
    if x =? null then ret tt
    else l <- gl x ;; delete_all_nodes f l ;;;
         r <- gr x ;; delete_all_nodes f r ;;;
         free x
  end.
End Tree.
