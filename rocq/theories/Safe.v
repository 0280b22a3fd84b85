(** Model of safe mode.
    Source: /repo/include/boost/multi_index/detail/safe_mode.hpp, and its uses in the indices:
    detail/ord_index_impl.hpp:773-777,881-933,976-1024,1339-1353 (the other indices use it in the same way),
    detail/any_container_view.hpp, detail/invalidate_iterators.hpp.

    The iterators of one index (or of indices of the same kind in several containers) are considered.  How an index keeps
    its elements is modelled elsewhere; here it is a list of nodes.  A failed check throws; this is what
    BOOST_MULTI_INDEX_SAFE_MODE_ASSERT does in the documentation's example.  Mutexes are
    modelled in Threads.v. *)
From Coq Require Import ZArith.
From Verif Require Import Prelude.
Set Implicit Arguments.

(** safe_iterator: the adapted iterator, cont, next, unchecked_ (305-370,449-578).  Addresses are numbers, 0 is null.
    [icont] is the safe_container<> pointed to by cont, or 0. *)
Record cell := mkCell { inode : node; icont : nat; inext : nat; iunch : bool }.
(** safe_container, as a member of an index: header.next (372-411,580-614), the header node and the elements of the index.  header.cont is always 0. *)
Record cont := mkCont { hnext : nat; hnode : node; elts : list node }.
(** the iterators and indices alive; [dom]: the addresses of the former *)
Record sst := mkS { its : nat -> option cell; dom : list nat; cts : nat -> option cont }.
Notation SM := (M sst).

Definition load (a : nat) : SM cell := fun s => match its s a with Some c => Ret c s | None => UB end.
Definition store (a : nat) (c : cell) : SM unit :=
  fun s => match its s a with Some _ => Ret tt (mkS (upd (its s) a (Some c)) (dom s) (cts s)) | None => UB end.
Definition index (c : nat) : SM cont := fun s => match cts s c with Some k => Ret k s | None => UB end.
Definition store_index (c : nat) (k : cont) : SM unit :=
  fun s => match cts s c with Some _ => Ret tt (mkS (its s) (dom s) (upd (cts s) c (Some k))) | None => UB end.
(** prev_: &cont->header or an iterator *)
Inductive prev := PH (c : nat) | PI (a : nat).
Definition get_next (p : prev) : SM nat :=
  match p with PH c => k <- index c ;; ret (hnext k) | PI a => c <- load a ;; ret (inext c) end.
Definition set_next (p : prev) (n : nat) : SM unit :=
  match p with
  | PH c => k <- index c ;; store_index c (mkCont n (hnode k) (elts k))
  | PI a => c <- load a ;; store a (mkCell (inode c) (icont c) n (iunch c))
  end.
Definition set_cont (a c : nat) : SM unit := x <- load a ;; store a (mkCell (inode x) c (inext x) (iunch x)).
Definition set_node (a : nat) (n : node) : SM unit := x <- load a ;; store a (mkCell n (icont x) (inext x) (iunch x)).
Definition set_unchecked (a : nat) (u : bool) : SM unit := x <- load a ;; store a (mkCell (inode x) (icont x) (inext x) u).
Definition fuel_of {A} (k : nat -> SM A) : SM A := fun s => k (S (length (dom s))) s.

(** attach, 413-424 *)
Definition attach (a c : nat) : SM unit :=
  set_cont a c ;;;
  if c =? 0 then ret tt else n <- get_next (PH c) ;; set_next (PI a) n ;;; set_next (PH c) a.
(** detach, 426-440 *)
Fixpoint find_prev (fuel : nat) (a : nat) (p : prev) : SM prev :=
  n <- get_next p ;;
  if n =? a then ret p else match fuel with O => ub | S f => find_prev f a (PI n) end.
Definition detach (a : nat) : SM unit :=
  x <- load a ;;
  if icont x =? 0 then ret tt
  else p <- fuel_of (fun f => find_prev f a (PH (icont x))) ;; n <- get_next (PI a) ;; set_next p n ;;; set_cont a 0.
(** uncheck, 313-317 *)
Definition uncheck (a : nat) : SM unit := detach a ;;; set_unchecked a true.

(** an iterator is constructed at an unused address *)
Definition alloc (a : nat) (x : cell) : SM unit :=
  fun s => match its s a with
           | Some _ => UB
           | None => if a =? 0 then UB else Ret tt (mkS (upd (its s) a (Some x)) (a :: dom s) (cts s))
           end.
(** safe_iterator(t0,cont_), 464-466 with 322-326; safe_iterator() is the same with null pointers, 461,320 *)
Definition make (a : nat) (n : node) (c : nat) : SM unit := alloc a (mkCell n 0 0 false) ;;; attach a c.
(** copy, 471 with 328-332 *)
Definition copy (a b : nat) : SM unit := x <- load b ;; alloc a (mkCell (inode x) 0 0 (iunch x)) ;;; attach a (icont x).
(** ~safe_iterator_base, 345-348 *)
Definition destroy (a : nat) : SM unit :=
  detach a ;;; fun s => Ret tt (mkS (upd (its s) a None) (remove Nat.eq_dec a (dom s)) (cts s)).

(** ** checks, 149-288 *)
Definition check (m : SM bool) : SM unit := b <- m ;; if b : bool then ret tt else throw.
Definition is_valid (x : cell) : bool := negb (icont x =? 0).
Definition check_valid_iterator (a : nat) : SM bool := x <- load a ;; ret (is_valid x || iunch x).
(** container() tells indices apart as well as cont does *)
Definition check_same_owner (a b : nat) : SM bool :=
  x <- load a ;; y <- load b ;; ret ((is_valid x && is_valid y && (icont x =? icont y)) || iunch x || iunch y).
(** equal, 504-510 *)
Definition equal (a b : nat) : SM bool :=
  check (check_valid_iterator a) ;;; check (check_valid_iterator b) ;;; check (check_same_owner a b) ;;;
  x <- load a ;; y <- load b ;; ret (inode x =? inode y).

Section Locals.
(** the address of a local iterator *)
Variable local : list nat -> nat.
(** a local iterator constructed by [mk] lives during [m] *)
Definition scoped {A} (mk : nat -> SM unit) (m : nat -> SM A) : SM A :=
  fun s => (let t := local (dom s) in
    mk t ;;; r <- try_catch (m t) (destroy t ;;; throw) ;; destroy t ;;; ret r) s.
(** owner()->end(), owner()->begin(): make_iterator of the header, or of the first node *)
Definition end_ (c : nat) (t : nat) : SM unit := k <- index c ;; make t (hnode k) c.
Definition begin_ (c : nat) (t : nat) : SM unit := k <- index c ;; make t (hd (hnode k) (elts k)) c.
(** valid()&&it!=owner()->...||unchecked() *)
Definition other_than (lim : nat -> nat -> SM unit) (a : nat) : SM bool :=
  x <- load a ;; b <- (if is_valid x then scoped (lim (icont x)) (fun t => b <- equal a t ;; ret (negb b)) else ret false) ;; ret (b || iunch x).
Definition check_dereferenceable_iterator : nat -> SM bool := other_than end_.
Definition check_incrementable_iterator : nat -> SM bool := other_than end_.
Definition check_decrementable_iterator : nat -> SM bool := other_than begin_.
(** check_is_owner, 173-181; cont.end() is a temporary *)
Definition check_is_owner (a c : nat) : SM bool :=
  x <- load a ;;
  b <- (if is_valid x then scoped (end_ c) (fun t => y <- load t ;; ret (icont x =? icont y)) else ret false) ;; ret (b || iunch x).
(** check_belongs_in_some_index, 182-189: owner()->end() and cont.end() are temporaries *)
Definition check_belongs_in_some_index (a c : nat) : SM bool :=
  x <- load a ;;
  b <- (if is_valid x then scoped (end_ (icont x)) (fun t => scoped (end_ c) (fun t' => y <- load t ;; z <- load t' ;; ret (inode y =? inode z))) else ret false) ;; ret (b || iunch x).

(** the adapted iterator: its successor, predecessor and position in the index.  Only for iterators which are valid *)
Fixpoint after (n : node) (l : list node) (h : node) : option node :=
  match l with [] => None | x :: l => if x =? n then Some (hd h l) else after n l h end.
Fixpoint before (n : node) (l : list node) : option node :=
  match l with x :: (y :: _) as l' => if y =? n then Some x else before n l' | _ => None end.
Fixpoint place (n : node) (l : list node) : nat :=
  match l with [] => 0 | x :: l => if x =? n then 0 else S (place n l) end.
Definition give {A} (o : option A) : SM A := match o with Some x => ret x | None => ub end.

(** assignment, 473-479 with 334-343 *)
Definition assign (a b : nat) : SM unit :=
  check (check_valid_iterator b) ;;;
  y <- load b ;; set_node a (inode y) ;;;
  set_unchecked a (iunch y) ;;;
  x <- load a ;;
  if icont x =? icont y then ret tt else detach a ;;; attach a (icont y).
(** dereference, 497-502: the node of an element *)
Definition dereference (a : nat) : SM node :=
  check (check_valid_iterator a) ;;; check (check_dereferenceable_iterator a) ;;;
  x <- load a ;; k <- index (icont x) ;; if existsb (Nat.eqb (inode x)) (elts k) then ret (inode x) else ub.
(** increment, 512-517 *)
Definition increment (a : nat) : SM unit :=
  check (check_valid_iterator a) ;;; check (check_incrementable_iterator a) ;;;
  x <- load a ;; k <- index (icont x) ;; n <- give (after (inode x) (elts k) (hnode k)) ;; set_node a n.
(** decrement, 519-524 *)
Definition decrement (a : nat) : SM unit :=
  check (check_valid_iterator a) ;;; check (check_decrementable_iterator a) ;;;
  x <- load a ;; k <- index (icont x) ;; n <- give (before (inode x) (elts k ++ [hnode k])) ;; set_node a n.
(** distance_to, 533-539 *)
Definition spot (a : nat) : SM Z :=
  x <- load a ;; k <- index (icont x) ;; ret (Z.of_nat (place (inode x) (elts k ++ [hnode k]))).
Definition distance_to (a b : nat) : SM Z :=
  check (check_valid_iterator a) ;;; check (check_valid_iterator b) ;;; check (check_same_owner a b) ;;;
  p <- spot a ;; q <- spot b ;; ret (q - p)%Z.
(** check_in_bounds, 261-268: end()-it is it.distance_to(end()) *)
Definition check_in_bounds (a : nat) (n : Z) : SM bool :=
  x <- load a ;;
  if iunch x then ret true else if negb (is_valid x) then ret false
  else if (0 <? n)%Z then d <- scoped (end_ (icont x)) (fun t => distance_to a t) ;; ret (n <=? d)%Z
  else d <- scoped (begin_ (icont x)) (fun t => distance_to a t) ;; ret (d <=? n)%Z.
(** advance, 526-531 *)
Definition advance (a : nat) (n : Z) : SM unit :=
  check (check_valid_iterator a) ;;; check (check_in_bounds a n) ;;;
  x <- load a ;; k <- index (icont x) ;; p <- spot a ;;
  if (p + n <? 0)%Z then ub else m <- give (nth_error (elts k ++ [hnode k]) (Z.to_nat (p + n))) ;; set_node a m.
(** check_valid_range, 198-214 *)
Fixpoint reaches (fuel : nat) (first last b : nat) : SM bool :=
  e <- equal first last ;;
  if e : bool then ret false
  else e <- equal first b ;;
       if e : bool then ret true
       else match fuel with O => ub | S f => increment first ;;; reaches f first last b end.
Definition size_of (c : nat) : SM nat := k <- index c ;; ret (length (elts k)).
Definition check_valid_range (a b : nat) : SM bool :=
  ok <- check_same_owner a b ;;
  if negb ok then ret false
  else x <- load a ;;
    if is_valid x then
      scoped (end_ (icont x)) (fun last =>
        e <- equal b last ;;
        if e : bool then ret true
        else scoped (fun t => copy t a) (fun first => n <- size_of (icont x) ;; reaches n first last b))
    else ret true.

(** check_outside_range, 215-258: the loop, and what follows it; [same]: first==it, or &*first==&*it *)
Fixpoint outside (same : nat -> SM bool) (fuel : nat) (first last b : nat) (found : bool) : SM bool :=
  let after_loop := e <- equal first b ;; if negb e then ret false else ret (negb found) in
  e <- equal first last ;;
  if e : bool then after_loop
  else e <- equal first b ;;
       if e : bool then after_loop
       else e <- same first ;;
            match fuel with O => ub | S f => increment first ;;; outside same f first last b (if e : bool then true else found) end.
(** iterators of the same type, 215-237 *)
Definition check_outside_range (p a b : nat) : SM bool :=
  ok <- check_same_owner a b ;;
  if negb ok then ret false
  else x <- load a ;;
    if is_valid x then
      scoped (end_ (icont x)) (fun last =>
        scoped (fun t => copy t a) (fun first => n <- size_of (icont x) ;; outside (fun f => equal f p) n first last b false))
    else ret true.
(** the position is given by an iterator of an index of another type, 239-258 *)
Definition check_outside_range2 (p a b : nat) : SM bool :=
  x <- load p ;;
  g <- (if is_valid x then scoped (end_ (icont x)) (fun t => e <- equal p t ;; ret (negb e)) else ret false) ;;
  y <- load a ;;
  if g && is_valid y then
    scoped (end_ (icont y)) (fun last =>
      scoped (fun t => copy t a) (fun first =>
        n <- size_of (icont y) ;; outside (fun f => u <- dereference f ;; w <- dereference p ;; ret (u =? w)) n first last b false))
  else ret true.

(** ** what is done with iterators when elements go away *)
(** The loops of detach_dereferenceable_iterators (595-608), detach_equivalent_iterators (621-643) and
    transfer_equivalent_iterators (658-686): an iterator for which [sel] holds is unlinked, then its cont is set to 0
    or it is linked to the container [d]; both is what attach does. *)
Fixpoint sweep (sel : nat -> SM bool) (d : nat) (fuel : nat) (p : prev) : SM unit :=
  n <- get_next p ;;
  if n =? 0 then ret tt
  else match fuel with
  | O => ub
  | S f =>
    b <- sel n ;;
    if b : bool then m <- get_next (PI n) ;; set_next p m ;;; attach n d ;;; sweep sel d f p
    else sweep sel d f (PI n)
  end.
Definition equivalent (t n : nat) : SM bool := if n =? t then ret false else equal n t.
(** detach_equivalent_iterators *)
Definition detach_equivalent_iterators (t : nat) : SM unit :=
  x <- load t ;;
  if is_valid x then fuel_of (fun f => sweep (equivalent t) 0 f (PH (icont x))) ;;; detach t else ret tt.
(** transfer_equivalent_iterators, 649-693; [same]: iterators are of the same type.  The argument is passed by value to the first of the two
    functions; dst.end() is a temporary. *)
Definition transfer_equivalent_iterators (same : bool) (d : nat) (t : nat) : SM unit :=
  if same then
    scoped (fun t' => copy t' t) (fun t' =>
      x <- load t' ;;
      if is_valid x then
        dc <- scoped (end_ d) (fun e => y <- load e ;; ret (icont y)) ;;
        fuel_of (fun f => sweep (equivalent t') dc f (PH (icont x)))
      else ret tt)
  else detach_equivalent_iterators t.
(** detach_iterators, transfer_iterators: ord_index_impl.hpp:1339-1353 *)
Definition detach_iterators (c : nat) (n : node) : SM unit := scoped (fun t => make t n c) (fun t => detach_equivalent_iterators t).
Definition transfer_iterators (c : nat) (same : bool) (d : nat) (n : node) : SM unit :=
  scoped (fun t => make t n c) (fun t => transfer_equivalent_iterators same d t).
(** detach_dereferenceable_iterators *)
Definition detach_dereferenceable_iterators (c : nat) : SM unit :=
  scoped (end_ c) (fun t => fuel_of (fun f => sweep (fun n => b <- equal n t ;; ret (negb b)) 0 f (PH c))).
(** safe_container_base::swap, 398-404, and ~safe_container_base, 388-396 *)
Fixpoint relabel (fuel : nat) (a c : nat) : SM unit :=
  if a =? 0 then ret tt
  else match fuel with O => ub | S f => set_cont a c ;;; n <- get_next (PI a) ;; relabel f n c end.
Definition safe_swap (c d : nat) : SM unit :=
  k <- index c ;; fuel_of (fun f => relabel f (hnext k) d) ;;;
  k' <- index d ;; fuel_of (fun f => relabel f (hnext k') c) ;;;
  n <- get_next (PH c) ;; m <- get_next (PH d) ;; set_next (PH c) m ;;; set_next (PH d) n.
Definition safe_destroy (c : nat) : SM unit :=
  k <- index c ;; fuel_of (fun f => relabel f (hnext k) 0) ;;; set_next (PH c) 0.

(** ** the operations of indices *)
Definition set_elts (c : nat) (l : list node) : SM unit := k <- index c ;; store_index c (mkCont (hnext k) (hnode k) l).
(** a new index; its header is [h] *)
Definition new_index (c : nat) (h : node) : SM unit :=
  fun s => match cts s c with
           | Some _ => UB
           | None => if c =? 0 then UB else Ret tt (mkS (its s) (dom s) (upd (cts s) c (Some (mkCont 0 h []))))
           end.
Definition insert_at {A} (i : nat) (x : A) (l : list A) : list A := firstn i l ++ x :: skipn i l.
Definition insert (c : nat) (i : nat) (n : node) : SM unit := k <- index c ;; set_elts c (insert_at i n (elts k)).
(** extract_ with invalidate_iterators(), or modify_ which fails: ord_index_impl.hpp:881-891,976-1024 *)
Definition extract (c : nat) (n : node) : SM unit :=
  k <- index c ;; set_elts c (remove Nat.eq_dec n (elts k)) ;;; detach_iterators c n.
(** transfer to [d]: transfer_ of the latter, then extract_ with it *)
Definition transfer (c d : nat) (i : nat) (same : bool) (n : node) : SM unit :=
  insert d i n ;;;
  k <- index c ;; set_elts c (remove Nat.eq_dec n (elts k)) ;;; transfer_iterators c same d n.
(** the order of elements is changed *)
Definition reorder (c : nat) (l : list node) : SM unit := set_elts c l.
(** clear_, 898-906 *)
Definition clear (c : nat) : SM unit := set_elts c [] ;;; detach_dereferenceable_iterators c.
(** swap_, swap_elements_, 909-933: with the safe containers headers and elements are exchanged *)
Definition swap (c d : nat) : SM unit :=
  safe_swap c d ;;;
  k <- index c ;; k' <- index d ;;
  store_index c (mkCont (hnext k) (hnode k') (elts k')) ;;;
  k' <- index d ;; store_index d (mkCont (hnext k') (hnode k) (elts k)).
(** the destructor of the container: delete_all_nodes_, then the members *)
Definition destroy_index (c : nat) : SM unit :=
  set_elts c [] ;;; safe_destroy c ;;; fun s => Ret tt (mkS (its s) (dom s) (upd (cts s) c None)).
(** erase(position), ord_index_impl.hpp:390-398: position++ is another local, which lives until the element is erased.  The result is at address [r] *)
Definition erase (c : nat) (a r : nat) : SM unit :=
  copy r a ;;;
  try_catch
    (check (check_valid_iterator r) ;;; check (check_dereferenceable_iterator r) ;;; check (check_is_owner r c) ;;;
     scoped (fun t => copy t r) (fun t => increment r ;;; x <- load t ;; extract c (inode x)))
    (destroy r ;;; throw).

(** ** programs *)
(** What a program does with iterators (I...) and indices (C...).  Iterators other than those kept by the program are locals.
    IMake: an iterator is returned by a member function of the index. *)
Inductive op :=
| INew (a : nat) | IMake (a c : nat) (n : node) | ICopy (a b : nat) | IAssign (a b : nat) | IDestroy (a : nat) | IRestore (a : nat) (n : node)
| IDeref (a : nat) | IIncr (a : nat) | IDecr (a : nat) | IAdvance (a : nat) (z : Z) | IEqual (a b : nat) | IDistance (a b : nat)
| IOwner (a c : nat) | IRange (a b : nat) | IOutside (p a b : nat) | IOutside2 (p a b : nat) | IBelongs (a c : nat)
| CNew (c : nat) (h : node) | CInsert (c i : nat) (n : node) | CExtract (c : nat) (n : node) | CTransfer (c d i : nat) (same : bool) (n : node)
| CReorder (c : nat) (l : list node) | CClear (c : nat) | CSwap (c d : nat) | CDestroy (c : nat) | CErase (c a r : nat).
Inductive answer := RU | RBool (b : bool) | RNode (n : node) | RInt (z : Z).
Definition ans {A} (f : A -> answer) (m : SM A) : SM answer := x <- m ;; ret (f x).
(** IRestore is load, 570-576; IOwner, IRange, IOutside, IOutside2 and IBelongs: BOOST_MULTI_INDEX_CHECK_IS_OWNER, BOOST_MULTI_INDEX_CHECK_VALID_RANGE,
    BOOST_MULTI_INDEX_CHECK_OUTSIDE_RANGE, BOOST_MULTI_INDEX_CHECK_BELONGS_IN_SOME_INDEX, 78-101 *)
(** The last of these is used by project, multi_index_container.hpp:489-566 *)
Definition run (o : op) : SM answer :=
  let u := ans (fun _ : unit => RU) in
  match o with
  | INew a => u (make a 0 0)
  | IMake a c n => u (make a n c)
  | ICopy a b => u (copy a b)
  | IAssign a b => u (assign a b)
  | IDestroy a => u (destroy a)
  | IRestore a n => u (set_node a n ;;; uncheck a)
  | IDeref a => ans RNode (dereference a)
  | IIncr a => u (increment a)
  | IDecr a => u (decrement a)
  | IAdvance a z => u (advance a z)
  | IEqual a b => ans RBool (equal a b)
  | IDistance a b => ans RInt (distance_to a b)
  | IOwner a c => u (check (check_is_owner a c))
  | IRange a b => u (check (check_valid_range a b))
  | IOutside p a b => u (check (check_outside_range p a b))
  | IOutside2 p a b => u (check (check_outside_range2 p a b))
  | IBelongs a c => u (check (check_belongs_in_some_index a c))
  | CNew c h => u (new_index c h)
  | CInsert c i n => u (insert c i n)
  | CExtract c n => u (extract c n)
  | CTransfer c d i same n => u (transfer c d i same n)
  | CReorder c l => u (reorder c l)
  | CClear c => u (clear c)
  | CSwap c d => u (swap c d)
  | CDestroy c => u (destroy_index c)
  | CErase c a r => u (erase c a r)
  end.
End Locals.
Definition start : sst := mkS (fun _ => None) [] (fun _ => None).
