(** Model of sequenced indices at pointer level.
    Sources (all under /repo/include/boost/multi_index):
      detail/seq_index_node.hpp, detail/seq_index_ops.hpp, sequenced_index.hpp *)
From Verif Require Import Prelude.

(** Heap of the doubly linked nodes of one or several sequenced indices.
    seq_index_node.hpp:40-43,127-129 (fields [prior_], [next_]); a node with [None] is not
    allocated.  [tk] counts the calls to user code made so far; [fil] is the
    local variable [fill] of sequenced_index_sort (seq_index_ops.hpp:153),
    kept in the state because the exception handler reads it. *)
Record sst := mkS { nx : node -> option node; pr : node -> option node;
                    tk : nat; fil : nat }.

Definition SM := M sst.

(** x->next(), x->prior() as rvalues; seq_index_node.hpp:40-43 *)
Definition get_next (x : node) : SM node :=
  fun s => match nx s x with Some v => Ret v s | None => UB end.
Definition get_prior (x : node) : SM node :=
  fun s => match pr s x with Some v => Ret v s | None => UB end.
(** x->next()=v, x->prior()=v; seq_index_node.hpp:40-43 *)
Definition set_next (x v : node) : SM unit :=
  fun s => match nx s x with
           | Some _ => Ret tt (mkS (upd (nx s) x (Some v)) (pr s) (tk s) (fil s))
           | None => UB end.
Definition set_prior (x v : node) : SM unit :=
  fun s => match pr s x with
           | Some _ => Ret tt (mkS (nx s) (upd (pr s) x (Some v)) (tk s) (fil s))
           | None => UB end.

(** deallocation of a node: multi_index_container.hpp:958-962 (delete_node_),
    seen from the links of this index *)
Definition free (x : node) : SM unit :=
  fun s => match nx s x with
           | Some _ => Ret tt (mkS (upd (nx s) x None) (upd (pr s) x None) (tk s) (fil s))
           | None => UB end.

(** seq_index_node.hpp:47-48 *)
Definition increment (x : node) : SM node := get_next x.
Definition decrement (x : node) : SM node := get_prior x.

(** seq_index_node.hpp:52-57 *)
Definition link (x header : node) : SM unit :=
  hp <- get_prior header ;;
  set_prior x hp ;;;
  set_next x header ;;;
  n <- get_next x ;;
  set_prior n x ;;;
  p <- get_prior x ;;
  set_next p x.

(** seq_index_node.hpp:59-63 *)
Definition unlink (x : node) : SM unit :=
  p <- get_prior x ;;
  n <- get_next x ;;
  set_next p n ;;;
  n' <- get_next x ;;
  p' <- get_prior x ;;
  set_prior n' p'.

(** seq_index_node.hpp:65-71 *)
Definition relink (position x : node) : SM unit :=
  unlink x ;;;
  pp <- get_prior position ;;
  set_prior x pp ;;;
  set_next x position ;;;
  n <- get_next x ;;
  set_prior n x ;;;
  p <- get_prior x ;;
  set_next p x.

(** seq_index_node.hpp:73-86 *)
Definition relink_range (position x y : node) : SM unit :=
  if x =? y then ret tt
  else
    z <- get_prior y ;;
    xp <- get_prior x ;;
    set_next xp y ;;;
    xp <- get_prior x ;;
    set_prior y xp ;;;
    pp <- get_prior position ;;
    set_prior x pp ;;;
    set_next z position ;;;
    xp <- get_prior x ;;
    set_next xp x ;;;
    zn <- get_next z ;;
    set_prior zn z.

(** seq_index_node.hpp:88-96; the do-while loop takes fuel *)
Fixpoint reverse_loop (fuel : nat) (header x : node) : SM unit :=
  match fuel with
  | O => ub
  | S f =>
    y <- get_next x ;;
    p <- get_prior x ;;
    set_prior x y ;;;
    set_next x p ;;;
    if y =? header then ret tt else reverse_loop f header y
  end.
Definition reverse (fuel : nat) (header : node) : SM unit :=
  reverse_loop fuel header header.

(** x->next()->prior()=x->prior()->next()=x; part of seq_index_node.hpp:109-110,116,123 *)
Definition adopt (x : node) : SM unit :=
  p <- get_prior x ;;
  set_next p x ;;;
  n <- get_next x ;;
  set_prior n x.

(** seq_index_node.hpp:98-125 *)
Definition swap_links (x y : node) : SM unit :=
  xn <- get_next x ;;
  yn <- get_next y ;;
  if negb (xn =? x) then
    if negb (yn =? y) then
      xp <- get_prior x ;;
      yp <- get_prior y ;;
      set_next x yn ;;; set_next y xn ;;;
      set_prior x yp ;;; set_prior y xp ;;;
      adopt x ;;; adopt y
    else
      set_next y xn ;;;
      xp <- get_prior x ;;
      set_prior y xp ;;;
      set_prior x x ;;; set_next x x ;;;
      adopt y
  else if negb (yn =? y) then
    set_next x yn ;;;
    yp <- get_prior y ;;
    set_prior x yp ;;;
    set_prior y y ;;; set_next y y ;;;
    adopt x
  else ret tt.

(** sequenced_index.hpp:906-909 *)
Definition empty_initialize (header : node) : SM unit :=
  set_next header header ;;; set_prior header header.

(** sequenced_index.hpp:221-228, 285-286 *)
Definition s_begin (header : node) : SM node := get_next header.
Definition s_end (header : node) : SM node := ret header.

(** Insertion of an accepted node [x] (insert_, sequenced_index.hpp:739-746, links at the end
    if all other indices accepted) followed by the repositioning done in
    insert(position,...) (sequenced_index.hpp:311-321). *)
Definition s_insert (header position x : node) : SM unit :=
  link x header ;;;
  if position =? header then ret tt else relink position x.

(** sequenced_index.hpp:379-387 restricted to this index: iterator to the next
    element is computed, the node is unlinked (extract_, 758-767) and freed *)
Definition s_erase (position : node) : SM node :=
  n <- get_next position ;;
  unlink position ;;;
  free position ;;;
  ret n.

(** sequenced_index.hpp:389-401; [first=erase(first)] while first!=last *)
Fixpoint s_erase_range (fuel : nat) (first last : node) : SM node :=
  match fuel with
  | O => ub
  | S f =>
    if first =? last then ret first
    else n <- s_erase first ;; s_erase_range f n last
  end.

(** sequenced_index.hpp:633-642 *)
Definition s_relocate (position i : node) : SM unit :=
  if position =? i then ret tt else relink position i.

(** sequenced_index.hpp:644-657 (= internal_splice(iterator...), 1065-1071) *)
Definition s_relocate_range (position first last : node) : SM unit :=
  if position =? last then ret tt else relink_range position first last.

(** sequenced_index.hpp:1056-1063: internal_splice when the range is given by
    another index of the same container; [range] is the sequence of nodes that
    iterators [first..last) of that other index visit. *)
Fixpoint s_internal_splice (pn : node) (range : list node) : SM unit :=
  match range with
  | [] => ret tt
  | x :: r => relink pn x ;;; s_internal_splice pn r
  end.

(** sequenced_index.hpp:659-668; [view] are the nodes designated by the view *)
Fixpoint s_rearrange (header : node) (view : list node) : SM unit :=
  match view with
  | [] => ret tt
  | x :: r => relink header x ;;; s_rearrange header r
  end.

(** sequenced_index.hpp:934-939, serialization rearranger *)
Definition s_rearranger (header position x : node) : SM unit :=
  let position := if position =? null then header else position in
  p <- increment position ;;
  if p =? x then ret tt else relink p x.

(** sequenced_index.hpp:769-777 *)
Fixpoint s_delete_all_loop (fuel : nat) (header x : node) : SM unit :=
  match fuel with
  | O => ub
  | S f =>
    if x =? header then ret tt
    else
      y <- get_next x ;;
      free x ;;;
      s_delete_all_loop f header y
  end.
Definition s_delete_all (fuel : nat) (header : node) : SM unit :=
  x <- get_next header ;; s_delete_all_loop fuel header x.

(** sequenced_index.hpp:721-737, copy_(): [map] is the copy map (originals to copies,
    header included); traverses the links of the original index. *)
Fixpoint s_copy_loop (fuel : nat) (map : node -> node) (xheader org cpy : node) : SM unit :=
  match fuel with
  | O => ub
  | S f =>
    next_org <- get_next org ;;
    let next_cpy := map next_org in
    set_next cpy next_cpy ;;;
    set_prior next_cpy cpy ;;;
    if next_org =? xheader then ret tt
    else s_copy_loop f map xheader next_org next_cpy
  end.
Definition s_copy (fuel : nat) (map : node -> node) (xheader header : node) : SM unit :=
  s_copy_loop fuel map xheader xheader header.

Section UserCode.

(** Values held by nodes; headers hold none.  [throws n] tells whether the
    n-th call to user code throws. *)
Variable V : Type.
Variable val : node -> option V.
Variable throws : nat -> bool.

(** a call to user code whose normal result is [a] *)
Definition ucall {A} (a : A) : SM A :=
  fun s => let s' := mkS (nx s) (pr s) (S (tk s)) (fil s) in
           if throws (tk s) then Exn s' else Ret a s'.

(** comp(Node::from_impl(a)->value(),Node::from_impl(b)->value()): reading
    the value of a node that holds none (a header) is undefined behaviour *)
Definition cmp (lt : V -> V -> bool) (a b : node) : SM bool :=
  match val a, val b with
  | Some va, Some vb => ucall (lt va vb)
  | _, _ => ub
  end.
Definition pcall (pred : V -> bool) (a : node) : SM bool :=
  match val a with
  | Some va => ucall (pred va)
  | None => ub
  end.

(** seq_index_ops.hpp:34-43 *)
Fixpoint s_remove_loop (fuel : nat) (pred : V -> bool) (first last : node) : SM unit :=
  match fuel with
  | O => ub
  | S f =>
    if first =? last then ret tt
    else
      b <- pcall pred first ;;
      if (b : bool) then
        n <- increment first ;;
        _ <- s_erase first ;;
        s_remove_loop f pred n last
      else
        n <- increment first ;;
        s_remove_loop f pred n last
  end.
Definition s_remove (fuel : nat) (pred : V -> bool) (header : node) : SM unit :=
  first <- s_begin header ;;
  s_remove_loop fuel pred first header.

(** seq_index_ops.hpp:45-57 *)
Fixpoint s_unique_loop (fuel : nat) (bpred : V -> V -> bool) (first last : node) : SM unit :=
  match fuel with
  | O => ub
  | S f =>
    middle <- increment first ;;
    if middle =? last then ret tt
    else
      b <- cmp bpred middle first ;;
      if (b : bool) then
        _ <- s_erase middle ;;
        s_unique_loop f bpred first last
      else s_unique_loop f bpred middle last
  end.
Definition s_unique (fuel : nat) (bpred : V -> V -> bool) (header : node) : SM unit :=
  first <- s_begin header ;;
  if first =? header then ret tt
  else s_unique_loop fuel bpred first header.

(** ** Transfer of nodes from another container

    [allow x]: whether all other indices of the destination accept the value of
    [x] (each node is attempted at most once per operation, so a function of the node
    covers every history).  Any user code run by the other indices may throw; it runs before
    the node is extracted from its source:
    multi_index_container.hpp:771-782 (transfer_), 944-949 (extract_for_transfer_),
    sequenced_index.hpp:739-746. *)
Variable allow : node -> bool.
Definition transfer (header x : node) : SM bool :=
  b <- ucall (allow x) ;;
  if (b : bool) then unlink x ;;; link x header ;;; ret true
  else ret false.

(** multi_index_container.hpp:976-985 *)
Fixpoint transfer_range (fuel : nat) (header first last : node) : SM unit :=
  match fuel with
  | O => ub
  | S f =>
    if first =? last then ret tt
    else
      n <- increment first ;;
      _ <- transfer header first ;;
      transfer_range f header n last
  end.

(** sequenced_index.hpp:1042-1054 *)
Definition external_splice1 (header position i : node) : SM bool :=
  b <- transfer header i ;;
  if (b && negb (position =? header))%bool then relink position i ;;; ret b
  else ret b.

(** sequenced_index.hpp:1093-1118.  The handler at 1110-1113 does not rethrow:
    control continues after the try block with the incremented iterator. *)
Definition external_splice_range (fuel : nat) (header position first last : node) : SM unit :=
  if position =? header then transfer_range fuel header first last
  else
    ftr <- decrement header ;;
    r <- try_catch
           (transfer_range fuel header first last ;;; ret ftr)
           (f1 <- increment ftr ;;
            relink_range position f1 header ;;;
            ret f1) ;;
    f2 <- increment r ;;
    relink_range position f2 header.

(** seq_index_ops.hpp:59-72 with x.splice resolved to external_splice
    (sequenced_index.hpp:523-527, 560-563; equal allocators) *)
Fixpoint s_merge_loop (fuel : nat) (lt : V -> V -> bool)
         (headerx first0 last0 first1 last1 : node) : SM node :=
  match fuel with
  | O => ub
  | S f =>
    if (first0 =? last0) || (first1 =? last1) then ret first1
    else
      b <- cmp lt first1 first0 ;;
      if (b : bool) then
        n <- increment first1 ;;
        _ <- external_splice1 headerx first0 first1 ;;
        s_merge_loop f lt headerx first0 last0 n last1
      else
        n <- increment first0 ;;
        s_merge_loop f lt headerx n last0 first1 last1
  end.
Definition s_merge (fuel : nat) (lt : V -> V -> bool) (headerx headery : node) : SM unit :=
  if headerx =? headery then ret tt
  else
    first0 <- s_begin headerx ;;
    first1 <- s_begin headery ;;
    first1' <- s_merge_loop fuel lt headerx first0 headerx first1 headery ;;
    external_splice_range fuel headerx headerx first1' headery.

(** ** Sorting *)

(** seq_index_ops.hpp:78-101 *)
Fixpoint collate_loop (fuel : nat) (lt : V -> V -> bool)
         (first0 last0 first1 last1 : node) : SM node :=
  match fuel with
  | O => ub
  | S f =>
    if (first0 =? last0) || (first1 =? last1) then ret first1
    else
      b <- cmp lt first1 first0 ;;
      if (b : bool) then
        tmp <- get_next first1 ;;
        relink first0 first1 ;;;
        collate_loop f lt first0 last0 tmp last1
      else
        n <- get_next first0 ;;
        collate_loop f lt n last0 first1 last1
  end.
Definition collate (fuel : nat) (lt : V -> V -> bool) (x y : node) : SM unit :=
  first0 <- get_next x ;;
  first1 <- get_next y ;;
  first1' <- collate_loop fuel lt first0 x first1 y ;;
  relink_range x first1' y.

(** Local storage of sequenced_index_sort (seq_index_ops.hpp:134-156): the
    header [carry] and the array [counter] of [digits+1] headers
    (sequenced_index_sort_max_fill, 108-111); the C++ value of [digits] is
    std::numeric_limits<std::size_t>::digits. *)
Variable digits : nat.
Variable carry : node.
Variable cnt : nat -> node.
Definition counter (i : nat) : SM node :=
  if i <? digits + 1 then ret (cnt i) else ub.

Definition get_fill : SM nat := fun s => Ret (fil s) s.
Definition set_fill (n : nat) : SM unit :=
  fun s => Ret tt (mkS (nx s) (pr s) (tk s) n).

(** seq_index_ops.hpp:162-164, while(i<fill&&counter[i].next()!=&counter[i]) *)
Fixpoint sort_carry (fuel : nat) (lt : V -> V -> bool) (i : nat) : SM nat :=
  match fuel with
  | O => ub
  | S f =>
    fill <- get_fill ;;
    if i <? fill then
      ci <- counter i ;;
      n <- get_next ci ;;
      if n =? ci then ret i
      else
        collate fuel lt carry ci ;;;
        sort_carry f lt (S i)
    else ret i
  end.

(** seq_index_ops.hpp:159-173, while(header->next()!=header->impl()) *)
Fixpoint sort_fill (fuel0 fuel : nat) (lt : V -> V -> bool) (header : node) : SM unit :=
  match fuel with
  | O => ub
  | S f =>
    hn <- get_next header ;;
    if hn =? header then ret tt
    else
      cn <- get_next carry ;;
      relink cn hn ;;;
      i <- sort_carry fuel0 lt 0 ;;
      ci <- counter i ;;
      swap_links carry ci ;;;
      fill <- get_fill ;;
      if i =? fill then
        set_fill (S fill) ;;;
        cf <- counter (S fill) ;;
        empty_initialize cf ;;;
        sort_fill fuel0 f lt header
      else sort_fill fuel0 f lt header
  end.

(** seq_index_ops.hpp:175-177, for(i=1;i<fill;++i) collate(&counter[i],&counter[i-1]) *)
Fixpoint sort_gather (fuel : nat) (lt : V -> V -> bool) (i : nat) : SM unit :=
  match fuel with
  | O => ub
  | S f =>
    fill <- get_fill ;;
    if i <? fill then
      ci <- counter i ;;
      cp <- counter (i - 1) ;;
      collate fuel lt ci cp ;;;
      sort_gather f lt (S i)
    else ret tt
  end.

(** seq_index_ops.hpp:185-189, handler loop for(i=0;i<=fill;++i); [k]=fill-i+1
    iterations left *)
Fixpoint sort_restore (k i : nat) (header : node) : SM unit :=
  match k with
  | O => ret tt
  | S k' =>
    ci <- counter i ;;
    n <- get_next ci ;;
    relink_range header n ci ;;;
    sort_restore k' (S i) header
  end.

(** seq_index_ops.hpp:115-193 *)
Definition s_sort (fuel : nat) (lt : V -> V -> bool) (header : node) : SM unit :=
  hn <- get_next header ;;
  if hn =? header then ret tt
  else
    hnn <- get_next hn ;;
    if hnn =? header then ret tt
    else
      set_fill 0 ;;;
      empty_initialize carry ;;;
      c0 <- counter 0 ;;
      empty_initialize c0 ;;;
      try_catch
        (sort_fill fuel fuel lt header ;;;
         sort_gather fuel lt 1 ;;;
         fill <- get_fill ;;
         c <- counter (fill - 1) ;;
         swap_links header c)
        (cn <- get_next carry ;;
         relink_range header cn carry ;;;
         fill <- get_fill ;;
         sort_restore (S fill) 0 header ;;;
         throw).

End UserCode.
