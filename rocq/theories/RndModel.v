(** Random access indices: the array of pointers and the algorithms on it.
    Sources (all under /repo/include/boost/multi_index):
      detail/rnd_index_node.hpp, detail/rnd_index_ptr_array.hpp, detail/rnd_index_ops.hpp,
      random_access_index.hpp

    A random access index keeps an array of capacity+1 slots.  Slot i points to the i-th
    element, slot size() to the header node; every node has a pointer [up] back to its slot. *)
From Coq Require Import ZArith.
From Verif Require Import Prelude.
Set Implicit Arguments.

(** Addresses of slots are numbers.  [slot]: contents of the allocated slots, [None] for addresses
    which are not allocated (an array not yet allocated, already deallocated or overrun); slots
    which have not been written to hold null.  [rup]: up(), [None] if there is no such node.
    [rsz], [rcap], [rbs]: size_, capacity_, spc.data().  [rbrk]: addresses from here on were never
    allocated.  [rtk]: number of calls which may throw made so far. *)
Record rst := mkR {
  slot : nat -> option node; rup : node -> option nat;
  rsz : nat; rcap : nat; rbs : nat; rbrk : nat; rtk : nat }.
Definition RM := M rst.

Section Rnd.
(** [throws i]: does the [i]-th call which may throw (allocations, predicates) throw? *)
Variable throws : nat -> bool.

(** *p as an rvalue, *p=x *)
Definition rd (p : nat) : RM node :=
  fun r => match slot r p with Some x => Ret x r | None => UB end.
Definition wr (p : nat) (x : node) : RM unit :=
  fun r => match slot r p with
           | Some _ => Ret tt (mkR (upd (slot r) p (Some x)) (rup r) (rsz r) (rcap r) (rbs r) (rbrk r) (rtk r))
           | None => UB
           end.
(** x->up() as an rvalue, x->up()=p; rnd_index_node.hpp:46-47 *)
Definition get_up (x : node) : RM nat :=
  fun r => match rup r x with Some p => Ret p r | None => UB end.
Definition set_up (x : node) (p : nat) : RM unit :=
  fun r => match rup r x with
           | Some _ => Ret tt (mkR (slot r) (upd (rup r) x (Some p)) (rsz r) (rcap r) (rbs r) (rbrk r) (rtk r))
           | None => UB
           end.
Definition get_sz : RM nat := fun r => Ret (rsz r) r.
Definition get_cap : RM nat := fun r => Ret (rcap r) r.
Definition set_sz (n : nat) : RM unit :=
  fun r => Ret tt (mkR (slot r) (rup r) n (rcap r) (rbs r) (rbrk r) (rtk r)).
(** begin(), end(), at(n): rnd_index_ptr_array.hpp:80-82 *)
Definition a_begin : RM nat := fun r => Ret (rbs r) r.
Definition a_end : RM nat := fun r => Ret (rbs r + rsz r) r.
Definition a_at (n : nat) : RM nat := fun r => Ret (rbs r + n) r.
(** a call which may throw *)
Definition r_tick : RM unit :=
  fun r => let r' := mkR (slot r) (rup r) (rsz r) (rcap r) (rbs r) (rbrk r) (S (rtk r)) in
           if throws (rtk r) then Exn r' else Ret tt r'.

(** the frequent pair of statements  *p=x; ( *p)->up()=p; *)
Definition put (p : nat) (x : node) : RM unit :=
  wr p x ;;; y <- rd p ;; set_up y p.

(** ** rnd_index_node.hpp *)

(** 51-69 *)
Definition increment (x : node) : RM node := p <- get_up x ;; rd (p + 1).
Definition decrement (x : node) : RM node := p <- get_up x ;; rd (p - 1).
Definition advance (x : node) (n : Z) : RM node :=
  p <- get_up x ;; if (Z.of_nat p + n <? 0)%Z then ub else rd (Z.to_nat (Z.of_nat p + n)).
Definition distance (x y : node) : RM Z := p <- get_up x ;; q <- get_up y ;; ret (Z.of_nat q - Z.of_nat p)%Z.

(** extract(x,pend), 141-149 *)
Fixpoint extract_loop (fuel x pend : nat) : RM unit :=
  match fuel with
  | O => ub
  | S f => if x =? pend then ret tt
           else n <- rd (x + 1) ;; put x n ;;; extract_loop f (x + 1) pend
  end.
Definition extract (x pend : nat) : RM unit := extract_loop (pend - x) x (pend - 1).

(** relocate(pos,x), 73-90 *)
Fixpoint shift_up (fuel x pos : nat) : RM unit :=
  match fuel with
  | O => ub
  | S f => if x =? pos then ret tt
           else n <- rd (x - 1) ;; put x n ;;; shift_up f (x - 1) pos
  end.
Definition relocate (pos x : nat) : RM unit :=
  n <- rd x ;;
  if x <? pos then
    extract x pos ;;; wr (pos - 1) n ;;; set_up n (pos - 1)
  else
    shift_up (S (x - pos)) x pos ;;; wr pos n ;;; set_up n pos.

(** inner loop of relocate(pos,first,last), 113-136 *)
Fixpoint cycle (fuel begin m n_m i : nat) (tmp : node) (j : nat) : RM unit :=
  match fuel with
  | O => ub
  | S f =>
    let k := if j <? n_m then j + m else j - n_m in
    if k =? i then put (begin + j) tmp
    else
      x <- rd (begin + k) ;; put (begin + j) x ;;;
      let j := if k <? n_m then k + m else k - n_m in
      if j =? i then put (begin + k) tmp
      else
        x <- rd (begin + j) ;; put (begin + k) x ;;;
        cycle f begin m n_m i tmp j
  end.
(** outer loop, 111-137: [c] more values of i *)
Fixpoint cycles (c begin m n_m n i : nat) : RM unit :=
  match c with
  | O => ret tt
  | S c => tmp <- rd (begin + i) ;; cycle (S n) begin m n_m i tmp i ;;; cycles c begin m n_m n (i + 1)
  end.
(** relocate(pos,first,last), 92-139 *)
Definition relocate_range (pos first last : nat) : RM unit :=
  let '(begin, middle, end_) := if pos <? first then (pos, first, last) else (first, last, pos) in
  let n := end_ - begin in
  let m := middle - begin in
  cycles (Nat.gcd n m) begin m (n - m) n 0.

(** transfer(pbegin0,pend0,pbegin1), 151-159 *)
Fixpoint transfer (c p0 p1 : nat) : RM unit :=
  match c with
  | O => ret tt
  | S c => x <- rd p0 ;; put p1 x ;;; transfer c (p0 + 1) (p1 + 1)
  end.

(** std::swap( *p,*q); ( *p)->up()=p; ( *q)->up()=q; *)
Definition swap_slots (p q : nat) : RM unit :=
  x <- rd p ;; y <- rd q ;; wr p y ;;; wr q x ;;;
  y <- rd p ;; set_up y p ;;; x <- rd q ;; set_up x q.
(** reverse, 161-170: [d] more rounds *)
Fixpoint reverse_loop (d pbegin pend : nat) : RM unit :=
  match d with
  | O => ret tt
  | S d => swap_slots pbegin (pend - 1) ;;; reverse_loop d (pbegin + 1) (pend - 1)
  end.
Definition reverse (pbegin pend : nat) : RM unit := reverse_loop ((pend - pbegin) / 2) pbegin pend.

(** gather_nulls, 172-189: the first loop has [c] more rounds, so has the second one *)
Fixpoint gather_fw (c p pbegin : nat) : RM nat :=
  match c with
  | O => ret pbegin
  | S c => x <- rd p ;;
           if x =? null then gather_fw c (p + 1) pbegin
           else put pbegin x ;;; gather_fw c (p + 1) (pbegin + 1)
  end.
Fixpoint gather_bw (c p pend : nat) : RM unit :=
  match c with
  | O => ret tt
  | S c => x <- rd (p - 1) ;;
           if x =? null then gather_bw c (p - 1) pend
           else put (pend - 1) x ;;; gather_bw c (p - 1) (pend - 1)
  end.
Definition gather_nulls (pbegin pend x : nat) : RM nat :=
  b <- gather_fw (x - pbegin) pbegin pbegin ;; gather_bw (pend - x) pend pend ;;; ret b.

(** ** rnd_index_ptr_array.hpp *)

(** auto_space(al,n), detail/auto_space.hpp:56-58: a new array of [n] slots; the allocation may
    throw *)
Definition new_space (n : nat) : RM nat :=
  r_tick ;;;
  fun r => let b := S (rbrk r) in
           Ret b (mkR (fun p => if (b <=? p) && (p <? b + n) then Some null else slot r p)
                      (rup r) (rsz r) (rcap r) (rbs r) (b + n) (rtk r)).
(** ~auto_space(), detail/auto_space.hpp:60 *)
Definition free_space (b n : nat) : RM unit :=
  fun r => Ret tt (mkR (fun p => if (b <=? p) && (p <? b + n) then None else slot r p)
                       (rup r) (rsz r) (rcap r) (rbs r) (rbrk r) (rtk r)).
(** set_capacity, 131-137 *)
Definition set_capacity (c : nat) : RM unit :=
  b1 <- new_space (c + 1) ;;
  b0 <- a_begin ;; n <- get_sz ;; c0 <- get_cap ;;
  transfer (n + 1) b0 b1 ;;;
  (fun r => Ret tt (mkR (slot r) (rup r) (rsz r) c b1 (rbrk r) (rtk r))) ;;;
  free_space b0 (c0 + 1).
(** 70-73 *)
Definition reserve (c : nat) : RM unit := c0 <- get_cap ;; if c0 <? c then set_capacity c else ret tt.
(** 63-68 *)
Definition room_for_one : RM unit :=
  n <- get_sz ;; c <- get_cap ;;
  if n =? c then reserve (if c <=? 10 then 15 else c + c / 2) else ret tt.
(** 75-78 *)
Definition shrink_to_fit : RM unit := n <- get_sz ;; c <- get_cap ;; if n <? c then set_capacity n else ret tt.
(** 84-91 *)
Definition push_back (x : node) : RM unit :=
  e <- a_end ;;
  h <- rd e ;; wr (e + 1) h ;;; h <- rd (e + 1) ;; set_up h (e + 1) ;;;
  wr e x ;;; y <- rd e ;; set_up y e ;;;
  n <- get_sz ;; set_sz (S n).
(** 93-97 *)
Definition erase (x : node) : RM unit :=
  p <- get_up x ;; e <- a_end ;; extract p (e + 1) ;;; n <- get_sz ;; set_sz (n - 1).
(** 99-104 *)
Definition a_clear : RM unit :=
  b <- a_begin ;; e <- a_end ;; h <- rd e ;; wr b h ;;; h <- rd b ;; set_up h b ;;; set_sz 0.

(** ** rnd_index_ops.hpp *)

(** random_access_index_remove, 30-52, [c] more rounds.  [pred x] is pred(x->value()). *)
Fixpoint remove_loop (pred : node -> bool) (c first res : nat) : RM nat :=
  match c with
  | O => ret res
  | S c => x <- rd first ;;
           r_tick ;;;
           if pred x then remove_loop pred c (first + 1) res
           else
             (if first =? res then ret tt else swap_slots first res) ;;;
             remove_loop pred c (first + 1) (res + 1)
  end.
Definition ptr_remove (pred : node -> bool) : RM node :=
  b <- a_begin ;; n <- get_sz ;; res <- remove_loop pred n b b ;; rd res.

(** random_access_index_unique, 54-80; [pred x y] is binary_pred(x->value(),y->value()) *)
Fixpoint unique_loop (pred : node -> node -> bool) (c first res : nat) : RM nat :=
  match c with
  | O => ret (res + 1)
  | S c => x <- rd res ;; y <- rd first ;;
           r_tick ;;;
           if pred x y then unique_loop pred c (first + 1) res
           else
             (if first =? res + 1 then ret tt else swap_slots first (res + 1)) ;;;
             unique_loop pred c (first + 1) (res + 1)
  end.
Definition ptr_unique (pred : node -> node -> bool) : RM node :=
  b <- a_begin ;; n <- get_sz ;;
  res <- (if n =? 0 then ret b else unique_loop pred (n - 1) (b + 1) b) ;; rd res.

(** random_access_index_inplace_merge, 82-118.  The auxiliary array is kept as the list of the
    values written to it ([out], latest first); [fuel] bounds their number by its size. *)
Fixpoint merge_loop (comp : node -> node -> bool) (fuel first0 last0 first1 last1 : nat) (out : list node)
  : RM (nat * nat * list node) :=
  if (first0 =? last0) || (first1 =? last1) then ret (first0, first1, out)
  else
    match fuel with
    | O => ub
    | S f =>
      y <- rd first1 ;; x <- rd first0 ;;
      r_tick ;;;
      if comp y x then merge_loop comp f first0 last0 (first1 + 1) last1 (y :: out)
      else merge_loop comp f (first0 + 1) last0 first1 last1 (x :: out)
    end.
(** std::copy(&*first,&*first+c,out) *)
Fixpoint copy_out (c first : nat) (out : list node) : RM (list node) :=
  match c with
  | O => ret out
  | S c => x <- rd first ;; copy_out c (first + 1) (x :: out)
  end.
(** while(first!=last){ *first=*out++; ( *first)->up()=first; ++first; }, [c] more rounds *)
Fixpoint put_back (c first : nat) (out : list node) : RM unit :=
  match c with
  | O => ret tt
  | S c => match out with
           | [] => ub
           | x :: out => put first x ;;; put_back c (first + 1) out
           end
  end.
Definition inplace_merge (comp : node -> node -> bool) (first1 : nat) : RM unit :=
  n <- get_sz ;; r_tick ;;;
  b <- a_begin ;; e <- a_end ;;
  st <- merge_loop comp n b first1 first1 e [] ;;
  let '(f0, f1, out) := st in
  (* both calls to std::copy write from the same place on: the second one over the first *)
  c0 <- copy_out (first1 - f0) f0 [] ;;
  c1 <- copy_out (e - f1) f1 [] ;;
  put_back n b (rev out ++ rev c1 ++ skipn (length c1) (rev c0)).

(** random_access_index_sort, 147-195.  [ssort l], the effect of std::stable_sort on the auxiliary
    array, is [Some] result or [None] if a comparison threw. *)
Definition ptr_sort (ssort : list node -> option (list node)) : RM unit :=
  n <- get_sz ;;
  if n <=? 1 then ret tt
  else
    r_tick ;;; b <- a_begin ;;
    buf <- copy_out n b [] ;;
    match ssort (rev buf) with
    | None => throw
    | Some buf => put_back n b buf
    end.

(** ** random_access_index.hpp *)

(** 1002-1012: relocate(position,x), relocate(position,first,last) for nodes *)
Definition relocate_node (position x : node) : RM unit :=
  p <- get_up position ;; q <- get_up x ;; relocate p q.
Definition relocate_nodes (position first last : node) : RM unit :=
  p <- get_up position ;; f <- get_up first ;; l <- get_up last ;; relocate_range p f l.
(** relocate for iterators, 713-737 *)
Definition r_relocate (position i : node) : RM unit :=
  if position =? i then ret tt else relocate_node position i.
Definition r_relocate_range (position first last : node) : RM unit :=
  if position =? last then ret tt else relocate_nodes position first last.
(** begin(): *ptrs.begin(), 235-238; operator[](n), 311-315: the node designated *)
Definition r_begin : RM node := b <- a_begin ;; rd b.
Definition r_nth (n : nat) : RM node := p <- a_at n ;; rd p.
(** reverse, 705-709 *)
Definition r_reverse : RM unit := b <- a_begin ;; e <- a_end ;; reverse b e.
(** rearrange, 740-753; [fs] are the elements referred to by the range starting at [first] *)
Fixpoint rearrange_loop (c p0 : nat) (fs : list node) : RM unit :=
  match c with
  | O => ret tt
  | S c => match fs with
           | [] => ub
           | v :: fs => p1 <- get_up v ;; swap_slots p0 p1 ;;; rearrange_loop c (p0 + 1) fs
           end
  end.
Definition r_rearrange (fs : list node) : RM unit :=
  b <- a_begin ;; n <- get_sz ;; rearrange_loop n b fs.
(** internal_splice for a range [xs] of another index of the same container, 1145-1163 *)
Fixpoint null_out (xs : list node) : RM unit :=
  match xs with
  | [] => ret tt
  | x :: xs => p <- get_up x ;; wr p null ;;; null_out xs
  end.
Fixpoint relink_at (pp : nat) (xs : list node) : RM unit :=
  match xs with
  | [] => ret tt
  | x :: xs => put pp x ;;; relink_at (pp + 1) xs
  end.
Definition internal_splice (position : node) (xs : list node) : RM unit :=
  null_out xs ;;;
  b <- a_begin ;; e <- a_end ;; p <- get_up position ;;
  pp <- gather_nulls b e p ;;
  relink_at pp xs.
End Rnd.
