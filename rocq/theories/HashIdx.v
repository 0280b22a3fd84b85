(** Model of hashed indices over their super layer.
    Source: /repo/include/boost/multi_index/hashed_index.hpp *)
From Verif Require Import Prelude Layer HashModel.
Set Implicit Arguments.

(** Arithmetic with floats: [load b] is the number of elements admitted by [b] buckets
    (calculate_max_load, hashed_index.hpp:1440-1445), [want n] the number of buckets asked for
    [n] elements, 1+n/mlf (1450-1452, 736-738), [ceil n] is ceil(n/mlf) (747), all for the
    current maximum load factor.  Nothing is assumed of them, so that roundings are covered. *)
Record policy := mkP { load : nat -> nat; want : nat -> nat; ceil : nat -> nat }.

(** own data members: link fields, number and size of the bucket array, max_load, mlf.
    hashed_index.hpp:1777-1779 *)
Record hst := mkH { hp : heap; arr : nat; bc : nat; ml : nat; pol : policy }.
Definition set_hp (h : heap) (t : hst) : hst := mkH h (arr t) (bc t) (ml t) (pol t).

Section Idx.
Variables V K : Type.
Variable throws : nat -> bool.
Variable pick : list node -> node.
Variable key : V -> K.            (* KeyFromValue; does not throw *)
Variable eq : K -> K -> bool.     (* Pred; a call may throw *)
Variable hash : K -> nat.         (* Hash; a call may throw *)
Variable uniq : bool.             (* Category: hashed_unique_tag or hashed_non_unique_tag *)
Variable hd : node.               (* header() *)
Variable junk : bptr * bptr.      (* contents of the link fields of a node before it is linked *)
Variable L : Layer V.             (* super *)

(** own data members, state of super *)
Definition ost := (hst * St L)%type.
Definition OM := M ost.

Definition hpM {A} (m : HM A) : OM A := ownM (lensM hp set_hp m).
Definition get {A} (f : hst -> A) : OM A := ownM (fun t => Ret (f t) t).
(** x->value() *)
Definition oval (x : node) : OM V := supM (basM L (value x)).
(** a call to user code returning [a] *)
Definition ucall {A} (a : A) : OM A := supM (basM L (tick throws)) ;;; ret a.
(** bound on the number of iterations *)
Definition bound : OM nat := n <- supM (size L) ;; ret (n + 4).
(** hash_(k) *)
Definition hcall (k : K) : OM nat := ucall (hash k).
(** p(key(x->value())) for a user-supplied predicate p; with p = eq_(k,.) it is eq_(k,key(...)) *)
Definition test (p : K -> bool) (x : node) : OM bool := v <- oval x ;; ucall (p (key v)).
(** eq_(key(x->value()),key(y->value())) *)
Definition same (x y : node) : OM bool := v <- oval x ;; test (eq (key v)) y.
Definition at_ (i : nat) : OM bptr := get (fun t => PB (arr t) i).
(** link fields of a node which enters the index *)
Definition place (x : node) : OM unit := hpM (fun h => Ret tt (put_node x junk h)).

(** ** node_alg *)
Definition after (x : node) : HM node := if uniq then u_after x else n_after x.
Definition after_local (x : node) : HM node := if uniq then u_after_local x else n_after_local x.
Definition next_to_inspect (x : node) : HM node := if uniq then u_after_local x else n_next_to_inspect x.
Definition alg_unlink (tr : bool) (x : node) : UM unit := if uniq then u_unlink tr x else n_unlink tr x.

(** find_bucket, bucket: hashed_index.hpp:1291-1294, 682-685 *)
Definition bucket (k : K) : OM nat := h <- hcall k ;; get (fun t => position h (bc t)).

(** ** Rehashing: hashed_index.hpp:1440-1570 *)

(** Address of the local node cpy_end_node: any one not in use.  1461-1462, 1513-1514 *)
Definition stack_node : OM node := supM (basM L (fun b => Ret (pick (map fst (mem b))) b)).

(** Body of the handler, 1487-1499: [acc] are the pairs (hashes[j],node_ptrs[j]) for j=i-1,...,0.
    [prev]: prev_buc, [None] when it has been complemented, which makes it differ from the
    position of any bucket *)
Fixpoint u_undo_loop (acc : list (nat * node)) (prev : option nat) : OM unit :=
  match acc with
  | [] => ret tt
  | (h, x) :: acc =>
    buc <- get (fun t => position h (bc t)) ;;
    b <- at_ buc ;;
    (if match prev with Some p => buc =? p | None => false end
     then hpM (u_append x hd) else hpM (link x b hd)) ;;;
    u_undo_loop acc (Some buc)
  end.
(** 1543-1560 *)
Fixpoint n_undo_loop (acc : list (nat * node)) (prev : option nat) : OM unit :=
  match acc with
  | [] => ret tt
  | (h, x) :: acc =>
    buc <- get (fun t => position h (bc t)) ;;
    b <- at_ buc ;;
    y <- hpM (c <- linked_left x ;;
              if c : bool then ret x
              else
                c <- n_first_of_bucket x ;;
                if c : bool then ret x else p <- pri (PN x) ;; n <- nxt p ;; pfrom n) ;;
    hpM (unlink_range y x) ;;;
    (if match prev with Some p => buc =? p | None => false end
     then hpM (append_range y x hd) else hpM (link_range y x b hd)) ;;;
    n_undo_loop acc (Some buc)
  end.
(** BOOST_CATCH(...){...}: 1486-1501, 1542-1562 *)
Definition undo_rehash (acc : list (nat * node)) (within : bool) : OM unit :=
  match acc with
  | [] => ret tt
  | (h, _) :: _ =>
    prev <- get (fun t => position h (bc t)) ;;
    (if uniq then u_undo_loop else n_undo_loop) acc (if within then Some prev else None)
  end.

(** Loops filling the new bucket array [a'] of [n'] buckets, 1472-1485 and 1524-1541.  As only
    the call to hash_ can throw, the handler is put around that call; [acc] are the pairs
    (hashes[j],node_ptrs[j]) for j<i, latest first. *)
Definition rehash_hash (x : node) (acc : list (nat * node)) (within : bool) : OM nat :=
  v <- oval x ;; try_catch (hcall (key v)) (undo_rehash acc within ;;; throw).
Fixpoint u_rehash_loop (n : nat) (a' n' : nat) (ce : node) (acc : list (nat * node)) (within : bool) : OM unit :=
  match n with
  | O => ret tt
  | S m =>
    x <- hpM (pri (PN hd)) ;;
    h <- rehash_hash x acc within ;;
    e <- hpM (u_unlink_last hd) ;;
    hpM (link x (PB a' (position h n')) ce) ;;;
    u_rehash_loop m a' n' ce ((h, x) :: acc) (negb e)
  end.
Fixpoint n_rehash_loop (fuel : nat) (a' n' : nat) (ce : node) (acc : list (nat * node)) (within : bool) : OM unit :=
  match fuel with
  | O => ub
  | S f =>
    x <- hpM (pri (PN hd)) ;;
    if x =? hd then ret tt
    else
      h <- rehash_hash x acc within ;;
      p <- hpM (unlink_last_group hd) ;;
      hpM (link_range (fst p) x (PB a' (position h n')) ce) ;;;
      n_rehash_loop f a' n' ce ((h, x) :: acc) (negb (snd p))
  end.
(** 1504-1508 = 1565-1569 (with buckets.swap and calculate_max_load): the new array becomes the
    bucket array, the old one is destroyed *)
Definition take_over (a' n' : nat) (ce : node) : OM unit :=
  hpM (z <- pri (PN ce) ;;
       (if z =? ce then set_pri (PN hd) hd else z <- pri (PN ce) ;; set_pri (PN hd) z) ;;;
       b <- nxt ce ;; set_nxt hd b ;;;
       b <- nxt hd ;; f <- pri b ;; set_pri (PN f) hd ;;;
       z <- pri (PN hd) ;; b <- nxt z ;; set_pri b hd) ;;;
  ownM (fun t => Ret tt (mkH (drop_node ce (free_array (arr t) (hp t))) a' n' (load (pol t) n') (pol t))).
(** unchecked_rehash: 1459-1509 (unique), 1511-1570 (non unique).  The bucket array and the two
    buffers are allocated first; whatever happens the local objects are destroyed. *)
Definition unchecked_rehash (n : nat) : OM unit :=
  ce <- stack_node ;;
  ucall tt ;;;
  a <- get arr ;;
  let a' := S a in
  let n' := bcount n in
  hpM (fun h => Ret tt (new_array a' n' ce h)) ;;;
  try_catch
    (sz <- supM (size L) ;;
     (if sz =? 0 then ret tt
      else ucall tt ;;; ucall tt ;;;
           if uniq then u_rehash_loop sz a' n' ce [] false
           else f <- bound ;; n_rehash_loop f a' n' ce [] false) ;;;
     take_over a' n' ce)
    (hpM (fun h => Ret tt (drop_node ce (free_array a' h))) ;;; throw).
(** reserve_for_insert: 1447-1455 *)
Definition reserve_for_insert (n : nat) : OM unit :=
  m <- get ml ;;
  if m <? n then w <- get (fun t => want (pol t) n) ;; unchecked_rehash w else ret tt.
(** rehash: 731-743 *)
Definition rehash (n : nat) : OM unit :=
  sz <- supM (size L) ;; m <- get ml ;; c <- get bc ;;
  if (sz <=? m) && (n <=? c) then ret tt
  else w <- get (fun t => want (pol t) sz) ;; unchecked_rehash (if w <? n then n else w).
(** reserve: 745-748 *)
Definition reserve (n : nat) : OM unit := c <- get (fun t => ceil (pol t) n) ;; rehash c.
(** max_load_factor(z), 729, calculate_max_load, 1440-1445 *)
Definition max_load_factor (p : policy) : OM unit :=
  ownM (fun t => Ret tt (mkH (hp t) (arr t) (bc t) (load p (bc t)) p)).

(** ** Where to link: hashed_index.hpp:1296-1426 *)

(** link_info: the base pointer [pos], [first]; [last], null unless non unique *)
Definition linfo := (bptr * node)%type.

(** 1349-1370 *)
Definition last_of_range (x : node) : OM node :=
  if uniq then ret x
  else
    y <- hpM (nxt x) ;;
    z <- hpM (pri y) ;;
    if z =? x then
      yy <- hpM (pfrom y) ;;
      b <- same x yy ;; ret (if b : bool then yy else x)
    else
      w <- hpM (pri (PN z)) ;;
      ret (if w =? x then x else z).
(** yy->next()->prior()==yy?pointer_from(yy->next()):yy->next()->prior(), 1392-1394, 1399-1401 *)
Definition beyond (yy : node) : HM node :=
  b <- nxt yy ;; z <- pri b ;;
  if z =? yy then b <- nxt yy ;; pfrom b else b <- nxt yy ;; pri b.
(** 1377-1402 *)
Definition end_of_range (x : node) : OM node :=
  if uniq then l <- last_of_range x ;; hpM (after l)
  else
    y <- hpM (nxt x) ;;
    z <- hpM (pri y) ;;
    if z =? x then
      yy <- hpM (pfrom y) ;;
      b <- same x yy ;;
      hpM (beyond (if b : bool then yy else x))
    else
      w <- hpM (pri (PN z)) ;;
      if w =? x then ret z else hpM (beyond z).

(** for(x=...;x!=0;x=next_to_inspect(x))if(p(key(x->value())))break;
    the loop shared by link_point, 1320-1326 and 1333-1340, find, 1703-1708, count, 1730-1732, and
    equal_range, 1763-1765.  Null when there is no such element. *)
Fixpoint find_loop (fuel : nat) (p : K -> bool) (x : node) : OM node :=
  match fuel with
  | O => ub
  | S f =>
    if x =? null then ret null
    else
      b <- test p x ;;
      if b : bool then ret x else x <- hpM (next_to_inspect x) ;; find_loop f p x
  end.
(** link_info pos(buckets.at(buc)); link_point(v,pos): 1317-1328 (unique), 1330-1342 (non unique) *)
Definition link_point (k : K) (buc : nat) : OM (bool * linfo) :=
  pos <- at_ buc ;; x <- hpM (pri pos) ;; f <- bound ;;
  x <- find_loop f (eq k) x ;;
  if x =? null then ret (true, (pos, null))
  else if uniq then ret (false, (PN x, null))
  else l <- last_of_range x ;; ret (true, (PN x, l)).
(** link: 1404-1426 *)
Definition do_link (x : node) (pos : linfo) : OM unit :=
  if uniq then hpM (link x (fst pos) hd)
  else if snd pos =? null then hpM (link x (fst pos) hd)
  else hpM (f <- pfrom (fst pos) ;; n_link x f (snd pos)).

(** ** in_place: hashed_index.hpp:1572-1645 *)

(** 1581-1587 *)
Fixpoint u_in_place (fuel : nat) (x : node) (k : K) (y : node) (found : bool) : OM bool :=
  match fuel with
  | O => ub
  | S f =>
    if y =? null then ret found
    else if y =? x then y <- hpM (after_local y) ;; u_in_place f x k y true
    else
      b <- test (eq k) y ;;
      if b : bool then ret false else y <- hpM (after_local y) ;; u_in_place f x k y found
  end.
(** do{...}while(y!=z); return false; 1612-1616 *)
Fixpoint in_group (fuel : nat) (x y z : node) : OM bool :=
  match fuel with
  | O => ub
  | S f =>
    if y =? x then ret true
    else y <- hpM (after_local y) ;; if y =? z then ret false else in_group f x y z
  end.
(** 1594-1644 *)
Fixpoint n_in_place (fuel : nat) (x : node) (k : K) (y : node) (found : bool) (range_size : nat) : OM bool :=
  match fuel with
  | O => ub
  | S f =>
    if y =? null then ret found
    else
      g <- hpM (n_first_of_group y) ;;
      if g : bool then
        if y =? x then s <- hpM (b <- nxt y ;; pfrom b) ;; test (eq k) s
        else
          z <- hpM (b <- nxt y ;; l <- pri b ;; after_local l) ;;
          b <- test (eq k) y ;;
          if b : bool then if found then ret false else in_group f x y z
          else if (range_size =? 1) && negb found then ret false
          else if range_size =? 2 then ret found
          else n_in_place f x k z found 0
      else if y =? x then
        if range_size =? 1 then ret true
        else y <- hpM (after_local y) ;; n_in_place f x k y true 1
      else
        b <- test (eq k) y ;;
        if b : bool then
          if (range_size =? 0) && found then ret false
          else if (range_size =? 1) && negb found then ret false
          else if range_size =? 2 then ret false
          else y <- hpM (after_local y) ;; n_in_place f x k y found (S range_size)
        else
          if (range_size =? 1) && negb found then ret false
          else if range_size =? 2 then ret found
          else y <- hpM (after_local y) ;; n_in_place f x k y found 0
  end.
Definition in_place (x : node) (k : K) (buc : nat) : OM bool :=
  b <- at_ buc ;; y <- hpM (pri b) ;; f <- bound ;;
  if uniq then u_in_place f x k y false else n_in_place f x k y false 0.

(** ** Operations called by the container *)

(** insert_: hashed_index.hpp:933-949 (no hint), 951-968 (hint) *)
Definition h_insert_ (v : V) (hint : option node) (x : node) (var : variant) : OM (node * node) :=
  n <- supM (size L) ;;
  reserve_for_insert (S n) ;;;
  buc <- bucket (key v) ;;
  r <- link_point (key v) buc ;;
  let (ok, pos) := r : bool * linfo in
  if ok : bool then
    rx <- supM (l_insert L v hint x var) ;;
    let (res, x) := rx : node * node in
    (if res =? x then place x ;;; do_link x pos else ret tt) ;;;
    ret (res, x)
  else y <- hpM (pfrom (fst pos)) ;; ret (y, x).

(** unlink(x), unlink(x,undo): 1428-1438 *)
Definition unlink (x : node) : OM unit := hpM (untracked (alg_unlink false x)).
Definition unlink_undo (x : node) : OM tracks := hpM (tracked (alg_unlink true x)).

(** extract_: 970-979 *)
Definition h_extract_ (x : node) : OM unit := unlink x ;;; supM (l_extract L x).

(** final_delete_node_ *)
Definition del (x : node) : OM unit :=
  supM (basM L (delete_node x)) ;;; hpM (fun h => Ret tt (drop_node x h)).
(** delete_all_nodes_: 986-994 (unique), 996-1013 (non unique) *)
Fixpoint del_all (fuel : nat) (x : node) : OM unit :=
  match fuel with
  | O => ub
  | S f =>
    if x =? hd then ret tt
    else
      y <- hpM (pri (PN x)) ;;
      (if uniq then ret tt
       else
         hpM (b <- nxt y ;;
              if bptr_eqb b (PN x) then ret tt
              else
                z <- pri b ;;
                if z =? x then ret tt
                else b <- nxt y ;; first <- pfrom b ;; n <- nxt first ;; set_pri n first)) ;;;
      del x ;;;
      del_all f y
  end.
Definition h_delete_all_ : OM unit := x <- hpM (pri (PN hd)) ;; f <- bound ;; del_all f x.

(** clear_: 1015-1023 *)
Definition h_clear_ : OM unit :=
  supM (l_clear L) ;;; a <- get arr ;; n <- get bc ;; hpM (clear a n hd).

(** Common part of replace_, 1065-1082, and modify_rollback_, 1154-1170: [m] is the operation of
    super, [buc] computes the bucket inside the try block *)
Definition h_move_ (k : K) (x : node) (fb : OM nat) (m : M (St L) bool) : OM bool :=
  u <- unlink_undo x ;;
  try_catch
    (buc <- fb ;;
     r <- link_point k buc ;;
     let (ok, pos) := r : bool * linfo in
     b <- (if ok : bool then supM m else ret false) ;;
     if b : bool then do_link x pos ;;; ret true
     else hpM (undo u) ;;; ret false)
    (hpM (undo u) ;;; throw).
(** replace_: 1058-1083 *)
Definition h_replace_ (v : V) (x : node) : OM bool :=
  b <- test (eq (key v)) x ;;
  if b : bool then supM (l_replace L v x)
  else h_move_ (key v) x (bucket (key v)) (l_replace L v x).

(** modify_: 1085-1145 *)
Definition h_modify_ (x : node) : OM bool :=
  r <- try_catch
         (v <- oval x ;; buc <- bucket (key v) ;; b <- in_place x (key v) buc ;; ret (buc, b))
         (h_extract_ x ;;; throw) ;;
  let (buc, b) := r : nat * bool in
  ok <- (if b : bool then ret true
         else
           unlink x ;;;
           try_catch
             (v <- oval x ;;
              r <- link_point (key v) buc ;;
              let (ok, pos) := r : bool * linfo in
              if ok : bool then do_link x pos ;;; ret true
              else supM (l_extract L x) ;;; ret false)
             (supM (l_extract L x) ;;; throw)) ;;
  if ok : bool then
    try_catch
      (b <- supM (l_modify L x) ;;
       if b : bool then ret true else unlink x ;;; ret false)
      (unlink x ;;; throw)
  else ret false.

(** modify_rollback_: 1147-1171 *)
Definition h_modify_rb_ (x : node) : OM bool :=
  v <- oval x ;; buc <- bucket (key v) ;;
  b <- in_place x (key v) buc ;;
  if b : bool then supM (l_modify_rb L x)
  else h_move_ (key v) x (ret buc) (l_modify_rb L x).

(** check_rollback_: 1173-1177 *)
Definition h_check_rb_ (x : node) : OM bool :=
  v <- oval x ;; buc <- bucket (key v) ;;
  b <- in_place x (key v) buc ;;
  if b : bool then supM (l_check_rb L x) else ret false.

Definition hashed : Layer V :=
  @mkL V ost
    (fun s => bget L (snd s)) (fun b s => (fst s, bset L b (snd s)))
    (fun s => cget L (snd s)) (fun n s => (fst s, cset L n (snd s)))
    h_insert_ h_extract_ h_delete_all_ h_clear_ h_replace_ h_modify_ h_modify_rb_ h_check_rb_.

(** ** Iterators: hashed_index.hpp:245-258, detail/hash_index_iterator.hpp *)
Definition h_begin : OM node := hpM (b <- nxt hd ;; pri b).
Definition h_next (x : node) : OM node := hpM (after x).

(** ** Lookup: hashed_index.hpp:1680-1773.  [hk] is hash(k), [p] is eq(k,.) for the key looked
    up, so that compatible keys are covered. *)
(** the common loop: the first equivalent element of the bucket, or null *)
Definition find_first (hk : nat) (p : K -> bool) : OM node :=
  h <- ucall hk ;;
  buc <- get (fun t => position h (bc t)) ;;
  b <- at_ buc ;; x <- hpM (pri b) ;; f <- bound ;; find_loop f p x.
(** find: 1698-1710 *)
Definition find (hk : nat) (p : K -> bool) : OM node :=
  x <- find_first hk p ;; ret (if x =? null then hd else x).
(** contains: 630-644 *)
Definition contains (hk : nat) (p : K -> bool) : OM bool :=
  y <- find hk p ;; ret (negb (y =? hd)).
(** do{++res;x=after(x);}while(x!=y); 1735-1738 *)
Fixpoint count_loop (fuel : nat) (x y : node) (res : nat) : OM nat :=
  match fuel with
  | O => ub
  | S f => x <- hpM (after x) ;; if x =? y then ret (S res) else count_loop f x y (S res)
  end.
(** count: 1725-1743 *)
Definition count (hk : nat) (p : K -> bool) : OM nat :=
  x <- find_first hk p ;;
  if x =? null then ret 0
  else y <- end_of_range x ;; f <- bound ;; count_loop f x y 0.
(** equal_range: 1758-1772 *)
Definition equal_range (hk : nat) (p : K -> bool) : OM (node * node) :=
  x <- find_first hk p ;;
  if x =? null then ret (hd, hd) else y <- end_of_range x ;; ret (x, y).

(** ** Bucket interface: hashed_index.hpp:663-709 *)
Definition bucket_count : OM nat := get bc.
Fixpoint bucket_loop (fuel : nat) (x : node) (res : nat) : OM nat :=
  match fuel with
  | O => ub
  | S f => if x =? null then ret res else x <- hpM (after_local x) ;; bucket_loop f x (S res)
  end.
(** bucket_size: 672-680 *)
Definition bucket_size (n : nat) : OM nat :=
  b <- at_ n ;; x <- hpM (pri b) ;; f <- bound ;; bucket_loop f x 0.
(** begin(n): 687-697 (null is end(n)); increment_local, hash_index_node.hpp:766-770 *)
Definition begin_local (n : nat) : OM node := b <- at_ n ;; hpM (pri b).
Definition next_local (x : node) : OM node := hpM (after_local x).
End Idx.
Arguments ost {V} L.
Arguments OM {V} L A.
Arguments hpM {V} L {A} m.
Arguments get {V} L {A} f.
Arguments oval {V} L x.
Arguments ucall {V} throws L {A} a.
Arguments bound {V} L.
Arguments hcall {V K} (throws hash) L k.
Arguments test {V K} (throws key) L p x.
Arguments same {V K} (throws key eq) L x y.
Arguments at_ {V} L i.
Arguments place {V} junk L x.
Arguments bucket {V K} (throws hash) L k.
Arguments stack_node {V} pick L.
Arguments u_undo_loop {V} hd L acc prev.
Arguments n_undo_loop {V} hd L acc prev.
Arguments undo_rehash {V} uniq hd L acc within.
Arguments rehash_hash {V K} (throws key hash) uniq hd L x acc within.
Arguments u_rehash_loop {V K} (throws key hash) uniq hd L (n a' n') ce acc within.
Arguments n_rehash_loop {V K} (throws key hash) uniq hd L (fuel a' n') ce acc within.
Arguments take_over {V} hd L (a' n') ce.
Arguments unchecked_rehash {V K} (throws pick key hash) uniq hd L n.
Arguments reserve_for_insert {V K} (throws pick key hash) uniq hd L n.
Arguments rehash {V K} (throws pick key hash) uniq hd L n.
Arguments reserve {V K} (throws pick key hash) uniq hd L n.
Arguments max_load_factor {V} L p.
Arguments last_of_range {V K} (throws key eq) uniq L x.
Arguments end_of_range {V K} (throws key eq) uniq L x.
Arguments find_loop {V K} (throws key) uniq L fuel p x.
Arguments link_point {V K} (throws key eq) uniq L k buc.
Arguments do_link {V} uniq hd L x pos.
Arguments u_in_place {V K} (throws key eq) uniq L fuel x k y found.
Arguments in_group {V} uniq L fuel x y z.
Arguments n_in_place {V K} (throws key eq) uniq L fuel x k y found range_size.
Arguments in_place {V K} (throws key eq) uniq L x k buc.
Arguments h_insert_ {V K} (throws pick key eq hash) uniq hd junk L v hint x var.
Arguments unlink {V} uniq L x.
Arguments unlink_undo {V} uniq L x.
Arguments h_extract_ {V} uniq L x.
Arguments del {V} L x.
Arguments del_all {V} uniq hd L fuel x.
Arguments h_delete_all_ {V} uniq hd L.
Arguments h_clear_ {V} hd L.
Arguments h_move_ {V K} (throws key eq) uniq hd L k x fb m.
Arguments h_replace_ {V K} (throws key eq hash) uniq hd L v x.
Arguments h_modify_ {V K} (throws key eq hash) uniq hd L x.
Arguments h_modify_rb_ {V K} (throws key eq hash) uniq hd L x.
Arguments h_check_rb_ {V K} (throws key eq hash) uniq L x.
Arguments hashed {V K} (throws pick key eq hash) uniq hd junk L.
Arguments h_begin {V} hd L.
Arguments h_next {V} uniq L x.
Arguments find_first {V K} (throws key) uniq L hk p.
Arguments find {V K} (throws key) uniq hd L hk p.
Arguments contains {V K} (throws key) uniq hd L hk p.
Arguments count_loop {V} uniq L fuel x y res.
Arguments count {V K} (throws key eq) uniq L hk p.
Arguments equal_range {V K} (throws key eq) uniq hd L hk p.
Arguments bucket_count {V} L.
Arguments bucket_loop {V} uniq L fuel x res.
Arguments bucket_size {V} uniq L n.
Arguments begin_local {V} L n.
Arguments next_local {V} uniq L x.
