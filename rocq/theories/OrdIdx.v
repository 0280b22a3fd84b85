(** Model of ordered and ranked indices over their super layer.
    Sources (all under /repo/include/boost/multi_index):
      detail/ord_index_impl.hpp, detail/ord_index_ops.hpp, detail/rnk_index_ops.hpp,
      ranked_index.hpp *)
From Verif Require Import Prelude OrdModel Layer.
Set Implicit Arguments.

Section Idx.
Variables V K : Type.
Variable throws : nat -> bool.
Variable key : V -> K.          (* KeyFromValue; does not throw *)
Variable lt : K -> K -> bool.   (* Compare; a call may throw *)
Variable uniq : bool.           (* Category: ordered_unique_tag or ordered_non_unique_tag *)
Variable rk : bool.             (* AugmentPolicy: rank_policy or null_augment_policy *)
Variable hd : node.             (* header() *)
Variable junk : cell.           (* contents of the link fields of a node before it is linked *)
Variable L : Layer V.           (* super *)

(** own link fields, state of super *)
Definition ost := (heap * St L)%type.
Definition OM := M ost.

(** x->value() *)
Definition oval (x : node) : OM V := supM (basM L (value x)).
(** a call to user code returning [a] *)
Definition ucall {A} (a : A) : OM A := supM (basM L (tick throws)) ;;; ret a.
(** comp_(k1,k2) *)
Definition cmp (k1 k2 : K) : OM bool := ucall (lt k1 k2).
(** tree operations; the bound on the number of iterations is that of a tree with as many
    nodes as the container has elements *)
Definition tree {A} (f : nat -> HM A) : OM A := n <- supM (size L) ;; ownM (f (n + 4)).
Definition bound : OM nat := n <- supM (size L) ;; ret (n + 4).
(** a node comes with arbitrary link fields *)
Definition place (x : node) : OM unit := ownM (fun h => Ret tt (upd h x (Some junk))).

(** ** Where to link: ord_index_impl.hpp:1150-1299 *)

(** while(x){y=x;c=comp_(k,key(x->value()));x=c?left:right;}
    ord_index_impl.hpp:1164-1168 = 1195-1199 *)
Fixpoint lp_loop (fuel : nat) (k : K) (y x : node) (c : bool) : OM (node * bool) :=
  match fuel with
  | O => ub
  | S f =>
    if x =? null then ret (y, c)
    else
      v <- oval x ;;
      c <- cmp k (key v) ;;
      x' <- ownM (if c : bool then gl x else gr x) ;;
      lp_loop f k x x' c
  end.

(** result of a link_point function: the boolean, inf.side, inf.pos *)
Definition link_info := (bool * (side * node))%type.

(** ord_index_impl.hpp:1159-1188 *)
Definition link_point_unique (k : K) : OM link_info :=
  root <- ownM (gp hd) ;;
  f <- bound ;;
  yc <- lp_loop f k hd root true ;;
  let (y, c) := yc : node * bool in
  leftmost <- ownM (gl hd) ;;
  if c && (y =? leftmost) then ret (true, (to_left, y))
  else
    yy <- (if c : bool then tree (fun f => decrement f y) else ret y) ;;
    v <- oval yy ;;
    b <- cmp (key v) k ;;
    ret (if b : bool then (true, (if c : bool then to_left else to_right, y)) else (false, (to_left, yy))).

(** ord_index_impl.hpp:1190-1203 *)
Definition link_point_nu (k : K) : OM link_info :=
  root <- ownM (gp hd) ;;
  f <- bound ;;
  yc <- lp_loop f k hd root true ;;
  let (y, c) := yc : node * bool in
  ret (true, (if c : bool then to_left else to_right, y)).

Definition link_point (k : K) : OM link_info :=
  if uniq then link_point_unique k else link_point_nu k.

(** ord_index_impl.hpp:1210-1214 *)
Fixpoint llp_loop (fuel : nat) (k : K) (y x : node) (c : bool) : OM (node * bool) :=
  match fuel with
  | O => ub
  | S f =>
    if x =? null then ret (y, c)
    else
      v <- oval x ;;
      c <- cmp (key v) k ;;
      x' <- ownM (if c : bool then gr x else gl x) ;;
      llp_loop f k x x' c
  end.
(** ord_index_impl.hpp:1205-1218 *)
Definition lower_link_point (k : K) : OM link_info :=
  root <- ownM (gp hd) ;;
  f <- bound ;;
  yc <- llp_loop f k hd root false ;;
  let (y, c) := yc : node * bool in
  ret (true, (if c : bool then to_right else to_left, y)).

(** if(before->right()==0) link to the right of before, else to the left of position;
    ord_index_impl.hpp:1243-1252 = 1282-1291 *)
Definition between (before position : node) : OM link_info :=
  r <- ownM (gr before) ;;
  ret (true, (if r =? null then (to_right, before) else (to_left, position))).

(** ord_index_impl.hpp:1220-1257 *)
Definition hinted_unique (k : K) (position : node) : OM link_info :=
  leftmost <- ownM (gl hd) ;;
  if position =? leftmost then
    n <- supM (size L) ;;
    b <- (if n =? 0 then ret false else v <- oval position ;; cmp k (key v)) ;;
    if b : bool then ret (true, (to_left, position)) else link_point_unique k
  else if position =? hd then
    r <- ownM (gr hd) ;;
    v <- oval r ;;
    b <- cmp (key v) k ;;
    if b : bool then r <- ownM (gr hd) ;; ret (true, (to_right, r)) else link_point_unique k
  else
    before <- tree (fun f => decrement f position) ;;
    v <- oval before ;;
    b <- cmp (key v) k ;;
    b <- (if b : bool then v <- oval position ;; cmp k (key v) else ret false) ;;
    if b : bool then between before position else link_point_unique k.

(** ord_index_impl.hpp:1259-1299 *)
Definition hinted_nu (k : K) (position : node) : OM link_info :=
  leftmost <- ownM (gl hd) ;;
  if position =? leftmost then
    n <- supM (size L) ;;
    b <- (if n =? 0 then ret false else v <- oval position ;; c <- cmp (key v) k ;; ret (negb c)) ;;
    if b : bool then ret (true, (to_left, position)) else lower_link_point k
  else if position =? hd then
    r <- ownM (gr hd) ;;
    v <- oval r ;;
    b <- cmp k (key v) ;;
    if negb b then r <- ownM (gr hd) ;; ret (true, (to_right, r)) else link_point_nu k
  else
    before <- tree (fun f => decrement f position) ;;
    v <- oval before ;;
    b <- cmp k (key v) ;;
    if negb b then
      v <- oval position ;;
      b <- cmp (key v) k ;;
      if negb b then between before position else lower_link_point k
    else link_point_nu k.

Definition hinted_link_point (k : K) (position : node) : OM link_info :=
  if uniq then hinted_unique k position else hinted_nu k position.

(** in_place: ord_index_impl.hpp:1310-1322 (unique), 1324-1337 (non unique) *)
Definition in_place (v : V) (x : node) : OM bool :=
  leftmost <- ownM (gl hd) ;;
  b <- (if x =? leftmost then ret true
        else
          y <- tree (fun f => decrement f x) ;;
          w <- oval y ;;
          if uniq then cmp (key w) (key v)
          else c <- cmp (key v) (key w) ;; ret (negb c)) ;;
  if b : bool then
    y <- tree (fun f => increment f x) ;;
    if y =? hd then ret true
    else
      w <- oval y ;;
      if uniq then cmp (key v) (key w)
      else c <- cmp (key w) (key v) ;; ret (negb c)
  else ret false.

(** ** Operations called by the container *)

(** insert_: ord_index_impl.hpp:842-859 (no hint), 861-879 (hint) *)
Definition o_insert_ (v : V) (hint : option node) (x : node) (var : variant) : OM (node * node) :=
  inf <- match hint with
         | None => link_point (key v)
         | Some p => hinted_link_point (key v) p
         end ;;
  let '(ok, (sd, pos)) := inf : link_info in
  if ok : bool then
    rx <- supM (l_insert L v hint x var) ;;
    let (res, x) := rx : node * node in
    (if res =? x then place x ;;; tree (fun f => link rk hd f x sd pos) else ret tt) ;;;
    ret (res, x)
  else ret (pos, x).

(** rebalance_for_extract(x,header()->parent(),header()->left(),header()->right()) *)
Definition unlink (x : node) : OM unit :=
  tree (fun f => rebalance_for_extract rk hd f x) ;;; ret tt.

(** extract_: ord_index_impl.hpp:881-891 *)
Definition o_extract_ (x : node) : OM unit := unlink x ;;; supM (l_extract L x).

(** delete_all_nodes: ord_index_impl.hpp:1301-1308 *)
Fixpoint del_all (fuel : nat) (x : node) : OM unit :=
  match fuel with
  | O => ub
  | S f =>
    if x =? null then ret tt
    else
      l <- ownM (gl x) ;; del_all f l ;;;
      r <- ownM (gr x) ;; del_all f r ;;;
      supM (basM L (delete_node x)) ;;;
      ownM (free x)
  end.
(** delete_all_nodes_: ord_index_impl.hpp:893-896 *)
Definition o_delete_all_ : OM unit :=
  root <- ownM (gp hd) ;; f <- bound ;; del_all f root.

(** clear_: ord_index_impl.hpp:898-906 *)
Definition o_clear_ : OM unit := supM (l_clear L) ;;; ownM (empty_initialize hd).

(** Common body of replace_, ord_index_impl.hpp:935-962, and modify_rollback_, 1028-1055: [m] is
    the operation of super *)
Definition o_move_ (v : V) (x : node) (m : M (St L) bool) : OM bool :=
  b <- in_place v x ;;
  if b : bool then supM m
  else
    next <- tree (fun f => increment f x) ;;
    unlink x ;;;
    try_catch
      (inf <- link_point (key v) ;;
       let '(ok, (sd, pos)) := inf : link_info in
       b <- (if ok : bool then supM m else ret false) ;;
       if b : bool then tree (fun f => link rk hd f x sd pos) ;;; ret true
       else tree (fun f => restore rk hd f x next) ;;; ret false)
      (tree (fun f => restore rk hd f x next) ;;; throw).
Definition o_replace_ (v : V) (x : node) : OM bool := o_move_ v x (l_replace L v x).

(** modify_: ord_index_impl.hpp:964-1026 *)
Definition o_modify_ (x : node) : OM bool :=
  b <- try_catch (v <- oval x ;; in_place v x) (o_extract_ x ;;; throw) ;;
  ok <- (if b : bool then ret true
         else
           unlink x ;;;
           try_catch
             (v <- oval x ;;
              inf <- link_point (key v) ;;
              let '(ok, (sd, pos)) := inf : link_info in
              if ok : bool then tree (fun f => link rk hd f x sd pos) ;;; ret true
              else supM (l_extract L x) ;;; ret false)
             (supM (l_extract L x) ;;; throw)) ;;
  if ok : bool then
    try_catch
      (b <- supM (l_modify L x) ;;
       if b : bool then ret true else unlink x ;;; ret false)
      (unlink x ;;; throw)
  else ret false.

(** modify_rollback_: ord_index_impl.hpp:1028-1055 *)
Definition o_modify_rb_ (x : node) : OM bool :=
  v <- oval x ;; o_move_ v x (l_modify_rb L x).

(** check_rollback_: ord_index_impl.hpp:1057-1060 *)
Definition o_check_rb_ (x : node) : OM bool :=
  v <- oval x ;;
  b <- in_place v x ;;
  if b : bool then supM (l_check_rb L x) else ret false.

Definition ordered : Layer V :=
  @mkL V ost
    (fun s => bget L (snd s)) (fun b s => (fst s, bset L b (snd s)))
    (fun s => cget L (snd s)) (fun n s => (fst s, cset L n (snd s)))
    o_insert_ o_extract_ o_delete_all_ o_clear_ o_replace_ o_modify_ o_modify_rb_ o_check_rb_.

(** ** Iterators: begin, end, ++, --; ord_index_impl.hpp:249-269, bidir_node_iterator.hpp *)
Definition o_begin : OM node := ownM (gl hd).
Definition o_next (x : node) : OM node := tree (fun f => increment f x).
Definition o_prev (x : node) : OM node := tree (fun f => decrement f x).

(** ** Lookup.  The user-supplied comparison with a fixed (compatible) key [x] is given by
    [below k = comp(k,x)] and [above k = comp(x,k)]. *)

(** one call to a user-supplied predicate on the key of a node *)
Definition test (p : K -> bool) (x : node) : OM bool := v <- oval x ;; ucall (p (key v)).

(** Loop of ordered_index_lower_bound, ord_index_ops.hpp:142-155, and lower_range,
    ord_index_impl.hpp:1429-1442, upper_range 1444-1457, with [p] the condition for going
    to the left *)
Fixpoint descend (fuel : nat) (p : K -> bool) (top y : node) : OM node :=
  match fuel with
  | O => ub
  | S f =>
    if top =? null then ret y
    else
      b <- test p top ;;
      if b : bool then l <- ownM (gl top) ;; descend f p l top
      else r <- ownM (gr top) ;; descend f p r y
  end.

(** ord_index_ops.hpp:142-155 *)
Definition lower_bound_at (below : K -> bool) (top y : node) : OM node :=
  f <- bound ;; descend f (fun k => negb (below k)) top y.
(** ord_index_ops.hpp:188-201 *)
Definition upper_bound_at (above : K -> bool) (top y : node) : OM node :=
  f <- bound ;; descend f above top y.

(** ord_index_impl.hpp:650-664 *)
Definition lower_bound (below : K -> bool) : OM node :=
  root <- ownM (gp hd) ;; lower_bound_at below root hd.
(** ord_index_impl.hpp:666-676 *)
Definition upper_bound (above : K -> bool) : OM node :=
  root <- ownM (gp hd) ;; upper_bound_at above root hd.

(** ordered_index_find, ord_index_ops.hpp:94-109; find, ord_index_impl.hpp:608-619 *)
Definition find (below above : K -> bool) : OM node :=
  root <- ownM (gp hd) ;;
  f <- bound ;;
  y <- descend f (fun k => negb (below k)) root hd ;;
  if y =? hd then ret hd
  else b <- test above y ;; ret (if b : bool then hd else y).

(** contains, ord_index_impl.hpp:636-648 *)
Definition contains (below above : K -> bool) : OM bool :=
  y <- find below above ;; ret (negb (y =? hd)).

(** ordered_index_equal_range, ord_index_ops.hpp:236-258 *)
Fixpoint eqr_loop (fuel : nat) (below above : K -> bool) (top y : node) : OM (node * node) :=
  match fuel with
  | O => ub
  | S f =>
    if top =? null then ret (y, y)
    else
      b <- test below top ;;
      if b : bool then r <- ownM (gr top) ;; eqr_loop f below above r y
      else
        a <- test above top ;;
        if a : bool then l <- ownM (gl top) ;; eqr_loop f below above l top
        else
          l <- ownM (gl top) ;; lo <- lower_bound_at below l top ;;
          r <- ownM (gr top) ;; up <- upper_bound_at above r y ;;
          ret (lo, up)
  end.
(** ord_index_impl.hpp:678-696 *)
Definition equal_range (below above : K -> bool) : OM (node * node) :=
  root <- ownM (gp hd) ;; f <- bound ;; eqr_loop f below above root hd.

(** std::distance(first,last) *)
Fixpoint distance (fuel : nat) (x y : node) : OM nat :=
  match fuel with
  | O => ub
  | S f => if x =? y then ret 0 else x <- o_next x ;; n <- distance f x y ;; ret (S n)
  end.
(** count, ord_index_impl.hpp:621-634 *)
Definition count (below above : K -> bool) : OM nat :=
  p <- equal_range below above ;;
  f <- bound ;; distance f (fst p) (snd p).

(** range: ord_index_impl.hpp:700-719,1377-1457.  [None] is the value [unbounded]. *)
Definition lower_range (lower : K -> bool) (top y : node) : OM node :=
  f <- bound ;; descend f lower top y.
Definition upper_range (upper : K -> bool) (top y : node) : OM node :=
  f <- bound ;; descend f (fun k => negb (upper k)) top y.
Fixpoint range_loop (fuel : nat) (lower upper : K -> bool) (z y : node) : OM (node * node) :=
  match fuel with
  | O => ub
  | S f =>
    if z =? null then ret (y, y)
    else
      b <- test lower z ;;
      if negb b then r <- ownM (gr z) ;; range_loop f lower upper r y
      else
        b <- test upper z ;;
        if negb b then l <- ownM (gl z) ;; range_loop f lower upper l z
        else
          l <- ownM (gl z) ;; lo <- lower_range lower l z ;;
          r <- ownM (gr z) ;; up <- upper_range upper r y ;;
          ret (lo, up)
  end.
Definition range (lower upper : option (K -> bool)) : OM (node * node) :=
  root <- ownM (gp hd) ;;
  f <- bound ;;
  match lower, upper with
  | Some lower, Some upper => range_loop f lower upper root hd
  | None, Some upper => b <- o_begin ;; u <- upper_range upper root hd ;; ret (b, u)
  | Some lower, None => l <- lower_range lower root hd ;; ret (l, hd)
  | None, None => b <- o_begin ;; ret (b, hd)
  end.

(** ** Ranked indices *)

(** for(;;) of ranked_index_nth, rnk_index_ops.hpp:55-63 *)
Fixpoint nth_loop (fuel : nat) (n : nat) (top : node) : HM node :=
  match fuel with
  | O => ub
  | S f =>
    l <- gl top ;; s <- node_size l ;;
    if n =? s then ret top
    else if n <? s then l <- gl top ;; nth_loop f n l
    else r <- gr top ;; nth_loop f (n - (s + 1)) r
  end.
(** ranked_index_nth, rnk_index_ops.hpp:46-64; ranked_index.hpp:69-73 *)
Definition nth (n : nat) : OM node :=
  tree (fun f =>
    top <- gp hd ;;
    if top =? null then ret hd
    else s <- gs top ;;
         if s <=? n then ret hd else nth_loop f n top).

(** while(x!=top) of ranked_index_rank, rnk_index_ops.hpp:77-83 *)
Fixpoint rank_loop (fuel : nat) (x top : node) (s : nat) : HM nat :=
  match fuel with
  | O => ub
  | S f =>
    if x =? top then ret s
    else
      z <- gp x ;;
      zr <- gr z ;;
      s' <- (if x =? zr then l <- gl z ;; n <- node_size l ;; ret (s + (n + 1)) else ret s) ;;
      rank_loop f z top s'
  end.
(** ranked_index_rank, rnk_index_ops.hpp:66-85; ranked_index.hpp:75-82 *)
Definition rank (x : node) : OM nat :=
  tree (fun f =>
    top <- gp hd ;;
    if top =? null then ret 0
    else if x =? hd then gs top
    else l <- gl x ;; s <- node_size l ;; rank_loop f x top s).

(** do-while loop of ranked_index_lower_bound_rank, rnk_index_ops.hpp:185-192 (also of
    find_rank 132-139, upper_bound_rank 238-245, and ranked_index.hpp:244-251,265-272), with
    [p] the condition for going to the left; returns s and y *)
Fixpoint descend_rank (fuel : nat) (p : K -> bool) (top y : node) (s : nat) : OM (nat * node) :=
  match fuel with
  | O => ub
  | S f =>
    b <- test p top ;;
    if b : bool then
      r <- ownM (gr top) ;; n <- ownM (node_size r) ;;
      l <- ownM (gl top) ;;
      if l =? null then ret (s - (n + 1), top) else descend_rank f p l top (s - (n + 1))
    else
      r <- ownM (gr top) ;;
      if r =? null then ret (s, y) else descend_rank f p r y s
  end.
(** if(!top)return 0; size_type s=top->size; do{...}while(top); return s; *)
Definition descend_rank_at (p : K -> bool) (top y : node) : OM nat :=
  if top =? null then ret 0
  else s <- ownM (gs top) ;; f <- bound ;; r <- descend_rank f p top y s ;; ret (fst r).
(** rnk_index_ops.hpp:174-195 *)
Definition lower_bound_rank_at (below : K -> bool) (top y : node) : OM nat :=
  descend_rank_at (fun k => negb (below k)) top y.
(** rnk_index_ops.hpp:227-248 *)
Definition upper_bound_rank_at (above : K -> bool) (top y : node) : OM nat :=
  descend_rank_at above top y.
(** ranked_index.hpp:98-126 *)
Definition lower_bound_rank (below : K -> bool) : OM nat :=
  root <- ownM (gp hd) ;; lower_bound_rank_at below root hd.
Definition upper_bound_rank (above : K -> bool) : OM nat :=
  root <- ownM (gp hd) ;; upper_bound_rank_at above root hd.

(** ranked_index_find_rank, rnk_index_ops.hpp:119-142; ranked_index.hpp:84-96 *)
Definition find_rank (below above : K -> bool) : OM nat :=
  root <- ownM (gp hd) ;;
  if root =? null then ret 0
  else
    s0 <- ownM (gs root) ;;
    f <- bound ;;
    r <- descend_rank f (fun k => negb (below k)) root hd s0 ;;
    let (s, y) := r : nat * node in
    if y =? hd then ret s0
    else b <- test above y ;; ret (if b : bool then s0 else s).

(** ranked_index_equal_range_rank, rnk_index_ops.hpp:294-314 *)
Fixpoint eqr_rank_loop (fuel : nat) (below above : K -> bool) (top y : node) (s : nat) : OM (nat * nat) :=
  match fuel with
  | O => ub
  | S f =>
    if top =? null then ret (s, s)
    else
      b <- test below top ;;
      if b : bool then r <- ownM (gr top) ;; eqr_rank_loop f below above r y s
      else
        a <- test above top ;;
        if a : bool then
          r <- ownM (gr top) ;; n <- ownM (node_size r) ;;
          l <- ownM (gl top) ;; eqr_rank_loop f below above l top (s - (n + 1))
        else
          ts <- ownM (gs top) ;;
          l <- ownM (gl top) ;; lo <- lower_bound_rank_at below l top ;;
          r <- ownM (gr top) ;; n <- ownM (node_size r) ;;
          up <- upper_bound_rank_at above r y ;;
          ret (s - ts + lo, s - n + up)
  end.
(** rnk_index_ops.hpp:285-317; ranked_index.hpp:128-143 *)
Definition equal_range_rank (below above : K -> bool) : OM (nat * nat) :=
  root <- ownM (gp hd) ;;
  if root =? null then ret (0, 0)
  else s <- ownM (gs root) ;; f <- bound ;; eqr_rank_loop f below above root hd s.

(** count of ranked indices, ranked_index.hpp:54-65 *)
Definition rcount (below above : K -> bool) : OM nat :=
  p <- equal_range_rank below above ;; ret (snd p - fst p).

(** ranked_index.hpp:233-273 *)
Definition lower_range_rank (lower : K -> bool) (top y : node) : OM nat :=
  descend_rank_at lower top y.
Definition upper_range_rank (upper : K -> bool) (top y : node) : OM nat :=
  descend_rank_at (fun k => negb (upper k)) top y.
(** ranked_index.hpp:188-205 *)
Fixpoint range_rank_loop (fuel : nat) (lower upper : K -> bool) (z y : node) (s : nat) : OM (nat * nat) :=
  match fuel with
  | O => ub
  | S f =>
    if z =? null then ret (s, s)
    else
      b <- test lower z ;;
      if negb b then r <- ownM (gr z) ;; range_rank_loop f lower upper r y s
      else
        b <- test upper z ;;
        if negb b then
          r <- ownM (gr z) ;; n <- ownM (node_size r) ;;
          l <- ownM (gl z) ;; range_rank_loop f lower upper l z (s - (n + 1))
        else
          zs <- ownM (gs z) ;;
          l <- ownM (gl z) ;; lo <- lower_range_rank lower l z ;;
          r <- ownM (gr z) ;; n <- ownM (node_size r) ;;
          up <- upper_range_rank upper r y ;;
          ret (s - zs + lo, s - n + up)
  end.
(** ranked_index.hpp:145-164,177-231; this->size() is the number of elements of the container *)
Definition range_rank (lower upper : option (K -> bool)) : OM (nat * nat) :=
  root <- ownM (gp hd) ;;
  f <- bound ;;
  match lower, upper with
  | Some lower, Some upper =>
    if root =? null then ret (0, 0)
    else s <- ownM (gs root) ;; range_rank_loop f lower upper root hd s
  | None, Some upper => u <- upper_range_rank upper root hd ;; ret (0, u)
  | Some lower, None => l <- lower_range_rank lower root hd ;; n <- supM (size L) ;; ret (l, n)
  | None, None => n <- supM (size L) ;; ret (0, n)
  end.

(** rearranger (used when loading an archive): ord_index_impl.hpp:1503-1520.  [None] is a
    null position.  The exception bad_archive_exception is [throw]. *)
Definition rearranger (position : option node) (x : node) : OM unit :=
  vx <- oval x ;;
  let k := key vx in
  b <- match position with
       | None => ret true
       | Some p => v <- oval p ;; cmp (key v) k
       end ;;
  p <- (if b : bool then
          root <- ownM (gp hd) ;;
          f <- bound ;;
          descend f (fun k' => negb (lt k' k)) root hd
        else
          match position with
          | None => ub
          | Some p =>
            v <- oval p ;;
            c <- cmp k (key v) ;;
            if c : bool then throw else tree (fun f => increment f p)
          end) ;;
  if p =? x then ret tt
  else unlink x ;;; tree (fun f => restore rk hd f x p).
End Idx.
Arguments oval {V} L x.
Arguments ucall {V} throws L {A} a.
Arguments cmp {V K} (throws lt) L k1 k2.
Arguments tree {V} L {A} f.
Arguments bound {V} L.
Arguments place {V} junk L x.
Arguments lp_loop {V K} (throws key lt) L fuel k y x c.
Arguments link_point_unique {V K} (throws key lt) hd L k.
Arguments link_point_nu {V K} (throws key lt) hd L k.
Arguments link_point {V K} (throws key lt) uniq hd L k.
Arguments llp_loop {V K} (throws key lt) L fuel k y x c.
Arguments lower_link_point {V K} (throws key lt) hd L k.
Arguments between {V} L before position.
Arguments hinted_unique {V K} (throws key lt) hd L k position.
Arguments hinted_nu {V K} (throws key lt) hd L k position.
Arguments hinted_link_point {V K} (throws key lt) uniq hd L k position.
Arguments in_place {V K} (throws key lt) uniq hd L v x.
Arguments o_insert_ {V K} (throws key lt) (uniq rk) hd junk L v hint x var.
Arguments unlink {V} rk hd L x.
Arguments o_extract_ {V} rk hd L x.
Arguments del_all {V} L fuel x.
Arguments o_delete_all_ {V} hd L.
Arguments o_clear_ {V} hd L.
Arguments o_move_ {V K} (throws key lt) (uniq rk) hd L v x m.
Arguments o_replace_ {V K} (throws key lt) (uniq rk) hd L v x.
Arguments o_modify_ {V K} (throws key lt) (uniq rk) hd L x.
Arguments o_modify_rb_ {V K} (throws key lt) (uniq rk) hd L x.
Arguments o_check_rb_ {V K} (throws key lt) uniq hd L x.
Arguments o_begin {V} hd L.
Arguments o_next {V} L x.
Arguments o_prev {V} L x.
Arguments test {V K} (throws key) L p x.
Arguments descend {V K} (throws key) L fuel p top y.
Arguments lower_bound_at {V K} (throws key) L below top y.
Arguments upper_bound_at {V K} (throws key) L above top y.
Arguments lower_bound {V K} (throws key) hd L below.
Arguments upper_bound {V K} (throws key) hd L above.
Arguments find {V K} (throws key) hd L (below above).
Arguments contains {V K} (throws key) hd L (below above).
Arguments eqr_loop {V K} (throws key) L fuel (below above) top y.
Arguments equal_range {V K} (throws key) hd L (below above).
Arguments distance {V} L fuel x y.
Arguments count {V K} (throws key) hd L (below above).
Arguments lower_range {V K} (throws key) L lower top y.
Arguments upper_range {V K} (throws key) L upper top y.
Arguments range_loop {V K} (throws key) L fuel (lower upper) z y.
Arguments range {V K} (throws key) hd L lower upper.
Arguments nth {V} hd L n.
Arguments rank {V} hd L x.
Arguments descend_rank {V K} (throws key) L fuel p top y s.
Arguments descend_rank_at {V K} (throws key) L p top y.
Arguments lower_bound_rank_at {V K} (throws key) L below top y.
Arguments upper_bound_rank_at {V K} (throws key) L above top y.
Arguments lower_bound_rank {V K} (throws key) hd L below.
Arguments upper_bound_rank {V K} (throws key) hd L above.
Arguments find_rank {V K} (throws key) hd L (below above).
Arguments eqr_rank_loop {V K} (throws key) L fuel (below above) top y s.
Arguments equal_range_rank {V K} (throws key) hd L (below above).
Arguments rcount {V K} (throws key) hd L (below above).
Arguments lower_range_rank {V K} (throws key) L lower top y.
Arguments upper_range_rank {V K} (throws key) L upper top y.
Arguments range_rank_loop {V K} (throws key) L fuel (lower upper) z y s.
Arguments range_rank {V K} (throws key) hd L lower upper.
Arguments rearranger {V K} (throws key lt) rk hd L position x.
