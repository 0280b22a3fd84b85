(** Model of the node algorithms and the bucket array of hashed indices.
    Sources (all under /repo/include/boost/multi_index):
      detail/hash_index_node.hpp, detail/bucket_array.hpp *)
From Verif Require Import Prelude Layer.
From Coq Require Import NArith.
Set Implicit Arguments.

(** base_pointer: points to a node or to the [i]-th half-header of the [a]-th bucket array.
    hash_index_node.hpp:96-119 *)
Inductive bptr := PN (x : node) | PB (a i : nat).
(** the field prior() of a base node, the field next() of a node.  hash_index_node.hpp:115-157 *)
Inductive loc := PR (b : bptr) | NX (x : node).

Definition bptr_eqb (p q : bptr) : bool :=
  match p, q with
  | PN x, PN y => x =? y
  | PB a i, PB b j => (a =? b) && (i =? j)
  | _, _ => false
  end.
Definition loc_eqb (l m : loc) : bool :=
  match l, m with
  | PR p, PR q => bptr_eqb p q
  | NX x, NX y => x =? y
  | _, _ => false
  end.

(** Link fields; [None]: not allocated.  A field prior() holds a [PN]. *)
Definition heap := loc -> option bptr.
Definition hset (h : heap) (l : loc) (v : option bptr) : heap :=
  fun m => if loc_eqb m l then v else h m.
Definition HM := M heap.

Definition rd (l : loc) : HM bptr := fun h => match h l with Some v => Ret v h | None => UB end.
Definition wr (l : loc) (v : bptr) : HM unit :=
  fun h => match h l with Some _ => Ret tt (hset h l (Some v)) | None => UB end.

(** pointer_from: a downcast of a pointer to a half-header is undefined.
    hash_index_node.hpp:143-148; base_pointer_from (150-154) is [PN] *)
Definition pfrom (b : bptr) : HM node := match b with PN x => ret x | PB _ _ => ub end.
(** x->prior(), x->next() and assignments to them *)
Definition pri (b : bptr) : HM node := v <- rd (PR b) ;; pfrom v.
Definition nxt (x : node) : HM bptr := rd (NX x).
Definition set_pri (b : bptr) (x : node) : HM unit := wr (PR b) (PN x).
Definition set_nxt (x : node) (b : bptr) : HM unit := wr (NX x) b.

(** ** Assignments which can be undone: hash_index_node.hpp:159-217

    State: the link fields and the tracks of pointers and of base pointers, latest first.
    [tr]: is the assigner an unlink_undo_assigner, rather than a default_assigner?
    Writing behind the end of a track array is undefined. *)
Definition tracks := (list (loc * bptr) * list (loc * bptr))%type.
Definition UM := M (heap * tracks).
Definition track (l : loc) (old : bptr) : M tracks unit :=
  fun t => match l with
           | PR _ => if length (fst t) <? 3 then Ret tt ((l, old) :: fst t, snd t) else UB
           | NX _ => if length (snd t) <? 2 then Ret tt (fst t, (l, old) :: snd t) else UB
           end.
Definition asg (tr : bool) (l : loc) (v : bptr) : UM unit :=
  old <- ownM (rd l) ;;
  (if tr then supM (track l old) else ret tt) ;;;
  ownM (wr l v).
Fixpoint put_back (t : list (loc * bptr)) : HM unit :=
  match t with
  | [] => ret tt
  | (l, v) :: t => wr l v ;;; put_back t
  end.
(** operator()(): hash_index_node.hpp:187-198 *)
Definition undo (t : tracks) : HM unit := put_back (fst t) ;;; put_back (snd t).
(** a use of the default assigner *)
Definition untracked (m : UM unit) : HM unit :=
  fun h => match m (h, ([], [])) with
           | Ret _ (h', _) => Ret tt h'
           | Exn (h', _) => Exn h'
           | UB => UB
           end.
Definition tracked (m : UM unit) : HM tracks :=
  fun h => match m (h, ([], [])) with
           | Ret _ (h', t) => Ret t h'
           | Exn (h', _) => Exn h'
           | UB => UB
           end.
Notation hM := (@ownM heap tracks _).

(** ** hashed_index_node_alg<Node,hashed_unique_tag>: hash_index_node.hpp:227-357 *)

(** 236-239 *)
Definition u_first_of_bucket (x : node) : HM bool :=
  p <- pri (PN x) ;; b <- nxt p ;; ret (negb (bptr_eqb b (PN x))).
(** 352-356 *)
Definition u_last_of_bucket (x : node) : HM bool :=
  b <- nxt x ;; y <- pri b ;; ret (negb (y =? x)).
(** 240-243 *)
Definition u_after (x : node) : HM node :=
  l <- u_last_of_bucket x ;;
  b <- nxt x ;; if l : bool then pri b else pfrom b.
(** 245-248, and next_to_inspect, 250-253 *)
Definition u_after_local (x : node) : HM node :=
  l <- u_last_of_bucket x ;;
  if l : bool then ret null else b <- nxt x ;; pfrom b.

(** 255-270, and 425-440 of the non-unique case *)
Definition link (x : node) (buc : bptr) (end_ : node) : HM unit :=
  f <- pri buc ;;
  if f =? null then
    e <- pri (PN end_) ;; set_pri (PN x) e ;;;
    e <- pri (PN end_) ;; b <- nxt e ;; set_nxt x b ;;;
    p <- pri (PN x) ;; set_nxt p buc ;;;
    set_pri buc x ;;;
    set_pri (PN end_) x
  else
    f <- pri buc ;; p <- pri (PN f) ;; set_pri (PN x) p ;;;
    f <- pri buc ;; set_nxt x (PN f) ;;;
    set_pri buc x ;;;
    b <- nxt x ;; set_pri b x.

(** 280-308 *)
Definition u_unlink (tr : bool) (x : node) : UM unit :=
  f <- hM (u_first_of_bucket x) ;;
  l <- hM (u_last_of_bucket x) ;;
  if f : bool then
    if l : bool then
      p <- hM (pri (PN x)) ;; b <- hM (nxt p) ;; asg tr (PR b) (PN null) ;;;
      p <- hM (pri (PN x)) ;; n <- hM (nxt x) ;; asg tr (NX p) n ;;;
      n <- hM (nxt x) ;; q <- hM (pri n) ;; p <- hM (pri (PN x)) ;; asg tr (PR (PN q)) (PN p)
    else
      p <- hM (pri (PN x)) ;; b <- hM (nxt p) ;; n <- hM (nxt x) ;; y <- hM (pfrom n) ;; asg tr (PR b) (PN y) ;;;
      n <- hM (nxt x) ;; p <- hM (pri (PN x)) ;; asg tr (PR n) (PN p)
  else if l then
    p <- hM (pri (PN x)) ;; n <- hM (nxt x) ;; asg tr (NX p) n ;;;
    n <- hM (nxt x) ;; q <- hM (pri n) ;; p <- hM (pri (PN x)) ;; asg tr (PR (PN q)) (PN p)
  else
    p <- hM (pri (PN x)) ;; n <- hM (nxt x) ;; asg tr (NX p) n ;;;
    n <- hM (nxt x) ;; p <- hM (pri (PN x)) ;; asg tr (PR n) (PN p).

(** 312-318 *)
Definition u_append (x end_ : node) : HM unit :=
  e <- pri (PN end_) ;; set_pri (PN x) e ;;;
  e <- pri (PN end_) ;; b <- nxt e ;; set_nxt x b ;;;
  p <- pri (PN x) ;; set_nxt p (PN x) ;;;
  set_pri (PN end_) x.
(** 320-336 *)
Definition u_unlink_last (end_ : node) : HM bool :=
  x <- pri (PN end_) ;;
  p <- pri (PN x) ;; b <- nxt p ;;
  if bptr_eqb b (PN x) then
    p <- pri (PN x) ;; n <- nxt x ;; set_nxt p n ;;;
    p <- pri (PN x) ;; set_pri (PN end_) p ;;;
    ret false
  else
    p <- pri (PN x) ;; b <- nxt p ;; set_pri b null ;;;
    p <- pri (PN x) ;; n <- nxt x ;; set_nxt p n ;;;
    p <- pri (PN x) ;; set_pri (PN end_) p ;;;
    ret true.

(** ** hashed_index_node_alg<Node,hashed_non_unique_tag>: hash_index_node.hpp:359-706 *)

(** 368-371 *)
Definition n_first_of_bucket (x : node) : HM bool :=
  p <- pri (PN x) ;; b <- nxt p ;; y <- pri b ;; ret (y =? x).
(** 602-605 *)
Definition n_last_of_bucket (x : node) : HM bool :=
  b <- nxt x ;; y <- pri b ;; z <- pri (PN y) ;; ret (z =? x).
(** 373-378 *)
Definition n_first_of_group (x : node) : HM bool :=
  b <- nxt x ;; y <- pri b ;;
  if y =? x then ret false
  else b <- nxt x ;; y <- pri b ;; z <- pri (PN y) ;; n <- nxt z ;; ret (bptr_eqb n (PN x)).

(** Common part of after, 380-387, and after_local, 389-396; [e]: the result at the end of a
    bucket *)
Definition n_after_or (e : node -> HM node) (x : node) : HM node :=
  b <- nxt x ;; y <- pri b ;;
  if y =? x then b <- nxt x ;; pfrom b
  else
    b <- nxt x ;; y <- pri b ;; z <- pri (PN y) ;;
    if z =? x then e x
    else
      b <- nxt x ;; y <- pri b ;; z <- pri (PN y) ;; n <- nxt z ;;
      if bptr_eqb n (PN x) then b <- nxt x ;; pfrom b
      else b <- nxt x ;; f <- pfrom b ;; b <- nxt f ;; pri b.
Definition n_after (x : node) : HM node := n_after_or (fun x => b <- nxt x ;; pri b) x.
Definition n_after_local (x : node) : HM node := n_after_or (fun _ => ret null) x.
(** 398-405 *)
Definition n_next_to_inspect (x : node) : HM node :=
  b <- nxt x ;; y <- pri b ;;
  if y =? x then b <- nxt x ;; pfrom b
  else
    b <- nxt x ;; y <- pri b ;; z <- pri (PN y) ;;
    if z =? x then ret null
    else
      b <- nxt x ;; y <- pri b ;; n <- nxt y ;; z <- pri n ;;
      b <- nxt x ;; y' <- pri b ;;
      if negb (z =? y') then ret null
      else b <- nxt x ;; y <- pri b ;; n <- nxt y ;; pfrom n.

(** 424-448 *)
Definition n_link (x first last : node) : HM unit :=
  p <- pri (PN first) ;; set_pri (PN x) p ;;;
  set_nxt x (PN first) ;;;
  f <- n_first_of_bucket first ;;
  (if f : bool then p <- pri (PN x) ;; b <- nxt p ;; set_pri b x
   else p <- pri (PN x) ;; set_nxt p (PN x)) ;;;
  if first =? last then set_pri (PN last) x
  else
    n <- nxt first ;;
    if bptr_eqb n (PN last) then
      set_pri (PN first) last ;;; set_nxt first (PN x)
    else
      n <- nxt first ;; second <- pfrom n ;;
      lastbutone <- pri (PN last) ;;
      set_pri (PN second) first ;;;
      set_pri (PN first) last ;;;
      set_nxt lastbutone (PN x).

(** 608-611 *)
Definition left_unlink (tr : bool) (x : node) : UM unit :=
  p <- hM (pri (PN x)) ;; n <- hM (nxt x) ;; asg tr (NX p) n.
(** 614-617 *)
Definition right_unlink (tr : bool) (x : node) : UM unit :=
  n <- hM (nxt x) ;; p <- hM (pri (PN x)) ;; asg tr (PR n) (PN p).
(** 620-623 *)
Definition left_unlink_first_of_bucket (tr : bool) (x : node) : UM unit :=
  p <- hM (pri (PN x)) ;; b <- hM (nxt p) ;; n <- hM (nxt x) ;; y <- hM (pfrom n) ;; asg tr (PR b) (PN y).
(** 626-629 *)
Definition right_unlink_last_of_bucket (tr : bool) (x : node) : UM unit :=
  n <- hM (nxt x) ;; q <- hM (pri n) ;; p <- hM (pri (PN x)) ;; asg tr (PR (PN q)) (PN p).
(** 632-647 *)
Definition right_unlink_first_of_group (tr : bool) (x : node) : UM unit :=
  n <- hM (nxt x) ;; second <- hM (pfrom n) ;;
  last <- hM (pri (PN second)) ;;
  lastbutone <- hM (pri (PN last)) ;;
  if second =? lastbutone then
    asg tr (NX second) (PN last) ;;;
    p <- hM (pri (PN x)) ;; asg tr (PR (PN second)) (PN p)
  else
    asg tr (NX lastbutone) (PN second) ;;;
    n <- hM (nxt second) ;; asg tr (PR n) (PN last) ;;;
    p <- hM (pri (PN x)) ;; asg tr (PR (PN second)) (PN p).
(** 650-665 *)
Definition left_unlink_last_of_group (tr : bool) (x : node) : UM unit :=
  lastbutone <- hM (pri (PN x)) ;;
  n <- hM (nxt lastbutone) ;; first <- hM (pfrom n) ;;
  n <- hM (nxt first) ;; second <- hM (pfrom n) ;;
  if lastbutone =? second then
    asg tr (PR (PN lastbutone)) (PN first) ;;;
    n <- hM (nxt x) ;; asg tr (NX lastbutone) n
  else
    asg tr (PR (PN second)) (PN lastbutone) ;;;
    y <- hM (pri (PN lastbutone)) ;; asg tr (NX y) (PN first) ;;;
    n <- hM (nxt x) ;; asg tr (NX lastbutone) n.
(** 668-682 *)
Definition unlink_last_but_one_of_group (tr : bool) (x : node) : UM unit :=
  n <- hM (nxt x) ;; first <- hM (pfrom n) ;;
  n <- hM (nxt first) ;; second <- hM (pfrom n) ;;
  last <- hM (pri (PN second)) ;;
  if second =? x then
    asg tr (PR (PN last)) (PN first) ;;;
    asg tr (NX first) (PN last)
  else
    p <- hM (pri (PN x)) ;; asg tr (PR (PN last)) (PN p) ;;;
    p <- hM (pri (PN x)) ;; asg tr (NX p) (PN first).
(** 685-699 *)
Definition unlink_second_of_group (tr : bool) (x : node) : UM unit :=
  last <- hM (pri (PN x)) ;;
  lastbutone <- hM (pri (PN last)) ;;
  n <- hM (nxt lastbutone) ;; first <- hM (pfrom n) ;;
  if lastbutone =? x then
    asg tr (NX first) (PN last) ;;;
    asg tr (PR (PN last)) (PN first)
  else
    n <- hM (nxt x) ;; asg tr (NX first) n ;;;
    n <- hM (nxt x) ;; asg tr (PR n) (PN last).

(** the tests of unlink: x->prior()->next()==x, x->next()->prior()==x,
    x->next()->prior()->prior()==x, x->next()->prior()->prior()->next()==x,
    pointer_from(x->prior()->prior()->next())->next()==x *)
Definition linked_left (x : node) : HM bool :=
  p <- pri (PN x) ;; b <- nxt p ;; ret (bptr_eqb b (PN x)).
Definition linked_right (x : node) : HM bool :=
  b <- nxt x ;; y <- pri b ;; ret (y =? x).
Definition group_end (x : node) : HM bool :=
  b <- nxt x ;; y <- pri b ;; z <- pri (PN y) ;; n <- nxt z ;; ret (bptr_eqb n (PN x)).
Definition is_second (x : node) : HM bool :=
  p <- pri (PN x) ;; q <- pri (PN p) ;; n <- nxt q ;; y <- pfrom n ;; n <- nxt y ;; ret (bptr_eqb n (PN x)).
(** 458-508 *)
Definition n_unlink (tr : bool) (x : node) : UM unit :=
  c <- hM (linked_left x) ;;
  if c : bool then
    c <- hM (linked_right x) ;;
    if c : bool then left_unlink tr x ;;; right_unlink tr x
    else
      c <- hM (n_last_of_bucket x) ;;
      if c : bool then left_unlink tr x ;;; right_unlink_last_of_bucket tr x
      else
        c <- hM (group_end x) ;;
        if c : bool then left_unlink tr x ;;; right_unlink_first_of_group tr x
        else unlink_last_but_one_of_group tr x
  else
    c <- hM (n_first_of_bucket x) ;;
    if c : bool then
      c <- hM (linked_right x) ;;
      if c : bool then left_unlink_first_of_bucket tr x ;;; right_unlink tr x
      else
        c <- hM (n_last_of_bucket x) ;;
        if c : bool then
          p <- hM (pri (PN x)) ;; b <- hM (nxt p) ;; asg tr (PR b) (PN null) ;;;
          p <- hM (pri (PN x)) ;; n <- hM (nxt x) ;; asg tr (NX p) n ;;;
          n <- hM (nxt x) ;; q <- hM (pri n) ;; p <- hM (pri (PN x)) ;; asg tr (PR (PN q)) (PN p)
        else left_unlink_first_of_bucket tr x ;;; right_unlink_first_of_group tr x
    else
      c <- hM (n_last_of_bucket x) ;;
      if c : bool then left_unlink_last_of_group tr x ;;; right_unlink_last_of_bucket tr x
      else
        c <- hM (is_second x) ;;
        if c : bool then unlink_second_of_group tr x
        else left_unlink_last_of_group tr x ;;; right_unlink tr x.

(** 512-528 *)
Definition link_range (first last : node) (buc : bptr) (cend : node) : HM unit :=
  f <- pri buc ;;
  if f =? null then
    e <- pri (PN cend) ;; set_pri (PN first) e ;;;
    e <- pri (PN cend) ;; b <- nxt e ;; set_nxt last b ;;;
    p <- pri (PN first) ;; set_nxt p buc ;;;
    set_pri buc first ;;;
    set_pri (PN cend) last
  else
    f <- pri buc ;; p <- pri (PN f) ;; set_pri (PN first) p ;;;
    f <- pri buc ;; set_nxt last (PN f) ;;;
    set_pri buc first ;;;
    b <- nxt last ;; set_pri b last.
(** 530-536 *)
Definition append_range (first last cend : node) : HM unit :=
  e <- pri (PN cend) ;; set_pri (PN first) e ;;;
  e <- pri (PN cend) ;; b <- nxt e ;; set_nxt last b ;;;
  p <- pri (PN first) ;; set_nxt p (PN first) ;;;
  set_pri (PN cend) last.
(** the two branches shared by the cases of unlink_last_group; [y] is the first of the group,
    [x] the last one; 545-547, 551-554, 560-562, 566-569 *)
Definition cut_group (emptied : bool) (y x end_ : node) : HM (node * bool) :=
  (if emptied then p <- pri (PN y) ;; b <- nxt p ;; set_pri b null else ret tt) ;;;
  p <- pri (PN y) ;; n <- nxt x ;; set_nxt p n ;;;
  p <- pri (PN y) ;; set_pri (PN end_) p ;;;
  ret (y, emptied).
(** 538-572 *)
Definition unlink_last_group (end_ : node) : HM (node * bool) :=
  x <- pri (PN end_) ;;
  c <- linked_left x ;;
  if c : bool then cut_group false x x end_
  else
    c <- n_first_of_bucket x ;;
    if c : bool then cut_group true x x end_
    else
      p <- pri (PN x) ;; n <- nxt p ;; y <- pfrom n ;;
      c <- linked_left y ;;
      if c : bool then cut_group false y x end_ else cut_group true y x end_.
(** 574-594 *)
Definition unlink_range (first last : node) : HM unit :=
  f <- n_first_of_bucket first ;;
  l <- n_last_of_bucket last ;;
  if f : bool then
    if l : bool then
      p <- pri (PN first) ;; b <- nxt p ;; set_pri b null ;;;
      p <- pri (PN first) ;; n <- nxt last ;; set_nxt p n ;;;
      n <- nxt last ;; q <- pri n ;; p <- pri (PN first) ;; set_pri (PN q) p
    else
      p <- pri (PN first) ;; b <- nxt p ;; n <- nxt last ;; y <- pfrom n ;; set_pri b y ;;;
      n <- nxt last ;; p <- pri (PN first) ;; set_pri n p
  else if l then
    p <- pri (PN first) ;; n <- nxt last ;; set_nxt p n ;;;
    n <- nxt last ;; q <- pri n ;; p <- pri (PN first) ;; set_pri (PN q) p
  else
    p <- pri (PN first) ;; n <- nxt last ;; set_nxt p n ;;;
    n <- nxt last ;; p <- pri (PN first) ;; set_pri n p.

(** ** bucket_array *)

(** sizes: bucket_array.hpp:43-49,63-74,113-116 (64-bit unsigned long) *)
Definition sizes : list N := [53; 97; 193; 389; 769;
  1543; 3079; 6151; 12289; 24593;
  49157; 98317; 196613; 393241; 786433;
  1572869; 3145739; 6291469; 12582917; 25165843;
  50331653; 100663319; 201326611; 402653189; 805306457;
  1610612741; 3221225473;
  6442450939; 12884901893; 25769803751; 51539607551;
  103079215111; 206158430209; 412316860441; 824633720831;
  1649267441651; 3298534883309; 6597069766657; 13194139533299;
  26388279066623; 52776558133303; 105553116266489; 211106232532969;
  422212465066001; 844424930131963; 1688849860263953;
  3377699720527861; 6755399441055731; 13510798882111483;
  27021597764222939; 54043195528445957; 108086391056891903;
  216172782113783843; 432345564227567621; 864691128455135207;
  1729382256910270481; 3458764513820540933; 6917529027641081903;
  13835058055282163729; 18446744073709551557]%N.
(** std::lower_bound(sizes,sizes+sizes_length,n), the first element not less than n *)
Fixpoint lower_bound (l : list N) (n : N) : nat :=
  match l with
  | [] => 0
  | s :: l => if (s <? n)%N then S (lower_bound l n) else 0
  end.
(** size_index: bucket_array.hpp:84-89 *)
Definition size_index (n : N) : nat :=
  let b := lower_bound sizes n in if b =? length sizes then b - 1 else b.
(** size() of a bucket array made for [n] buckets: bucket_array.hpp:142-152 *)
Definition bucket_size_for (n : N) : N := nth (size_index n) sizes 53%N.
Definition bcount (n : nat) : nat := N.to_nat (bucket_size_for (N.of_nat n)).
(** position: bucket_array.hpp:94-107,154-157 *)
Definition position (hash size : nat) : nat := hash mod size.

(** Allocation of the [a]-th bucket array, of [n] buckets and the one at end(), followed by
    clear(end_): bucket_array.hpp:142-147,163-168.  The loop of clear is one update of the link
    fields.  [a] is a number not used for another array. *)
Definition new_array (a n : nat) (end_ : node) (h : heap) : heap :=
  hset (hset (fun l => match l with
                       | PR (PB a' i) => if a =? a' then
                                           if i <? n then Some (PN null)
                                           else if i =? n then Some (PN end_) else None
                                         else h l
                       | _ => h l
                       end)
             (PR (PN end_)) (Some (PN end_)))
       (NX end_) (Some (PB a n)).
(** clear(end_): bucket_array.hpp:163-168; undefined if end_ is no node *)
Definition clear (a n : nat) (end_ : node) : HM unit :=
  _ <- rd (NX end_) ;; _ <- rd (PR (PN end_)) ;; fun h => Ret tt (new_array a n end_ h).
(** deallocation of a bucket array *)
Definition free_array (a : nat) (h : heap) : heap :=
  fun l => match l with PR (PB a' _) => if a =? a' then None else h l | _ => h l end.
(** a node comes with arbitrary link fields; a node goes *)
Definition put_node (x : node) (j : bptr * bptr) (h : heap) : heap :=
  hset (hset h (PR (PN x)) (Some (fst j))) (NX x) (Some (snd j)).
Definition drop_node (x : node) (h : heap) : heap :=
  hset (hset h (PR (PN x)) None) (NX x) None.
