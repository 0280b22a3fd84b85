(** Model of copy construction of containers.
    Sources (all under /repo/include/boost):
      multi_index_container.hpp, multi_index/detail/copy_map.hpp,
      multi_index/detail/ord_index_impl.hpp, multi_index/sequenced_index.hpp,
      multi_index/random_access_index.hpp, multi_index/hashed_index.hpp

    The links of the copied container [x] and those of the new one are separate parts of the
    state.  That of [x] is only read: functions on it are run with [from].  Link fields of a
    copy come to exist, with arbitrary contents, at the beginning of copy_. *)
From Verif Require Import Prelude SeqModel OrdModel Layer SeqIdx RndModel RndIdx Stack View Container Conv Client.
From Verif Require HashModel HashIdx.
Set Implicit Arguments.
Local Notation size := Layer.size.

(** an access to the links of the copied container *)
Definition from {S T A} (x : S) (m : M S A) : M T A :=
  fun t => match m x with Ret a _ => Ret a t | Exn _ => UB | UB => UB end.

(** ** copy_map *)

(** entries (original, copy); copy_map.hpp:46-58 *)
Definition cmap := list (node * node).
(** std::sort with copy_map_entry::operator<, for different originals; copy_map.hpp:54-57,156-160 *)
Fixpoint cm_add (e : node * node) (m : cmap) : cmap :=
  match m with
  | [] => [e]
  | e' :: m' => if fst e <=? fst e' then e :: m else e' :: cm_add e m'
  end.
Definition cm_sort (m : cmap) : cmap := fold_right cm_add [] m.
(** find: copy_map.hpp:108-113, with std::lower_bound; undefined when the end is dereferenced *)
Definition cm_find (ho hc : node) (m : cmap) (x : node) : option node :=
  if x =? ho then Some hc else option_map snd (List.find (fun e => x <=? fst e) m).
Definition look_up {S} (mfind : node -> option node) (x : node) : M S node :=
  match mfind x with Some y => ret y | None => ub end.
(** for(it=map.begin();it!=map.end();++it) *)
Fixpoint for_pairs {S} (f : node -> node -> M S unit) (m : cmap) : M S unit :=
  match m with
  | [] => ret tt
  | (org, cpy) :: m => f org cpy ;;; for_pairs f m
  end.

(** ** copy_ of the indices *)
Section Indices.
Variable mfind : node -> option node.     (* map.find *)
Variable map : cmap.                     (* the entries of map *)
Variables hs hd : node.                  (* x.header(), header() *)

(** *** ordered indices: ord_index_impl.hpp:784-838 *)
Section Ordered.
Variable rk : bool.
Variable junk : cell.
Variable x : OrdModel.heap.
Definition o_place : HM unit :=
  for_pairs (fun _ cpy h => Ret tt (upd h cpy (Some junk))) map.
(** 811-837.  AugmentPolicy::copy: ordered_index.hpp:44 (does nothing), ranked_index.hpp:314-318 *)
Definition o_copy_node (org cpy : node) : HM unit :=
  c <- from x (gc org) ;; sc cpy c ;;;
  (if rk then n <- from x (gs org) ;; ss cpy n else ret tt) ;;;
  parent_org <- from x (gp org) ;;
  (if parent_org =? null then sp cpy null
   else
     parent_cpy <- look_up mfind parent_org ;;
     sp cpy parent_cpy ;;;
     l <- from x (gl parent_org) ;;
     if l =? org then sl parent_cpy cpy
     else r <- from x (gr parent_org) ;; if r =? org then sr parent_cpy cpy else ret tt) ;;;
  l <- from x (gl org) ;;
  (if l =? null then sl cpy null else ret tt) ;;;
  r <- from x (gr org) ;;
  (if r =? null then sr cpy null else ret tt).
Definition o_copy : HM unit :=
  o_place ;;;
  root <- from x (gp hs) ;;
  if root =? null then OrdModel.empty_initialize hd
  else
    c <- from x (gc hs) ;; sc hd c ;;;
    (if rk then n <- from x (gs hs) ;; ss hd n else ret tt) ;;;
    root <- from x (gp hs) ;; root_cpy <- look_up mfind root ;; sp hd root_cpy ;;;
    l <- from x (gl hs) ;; leftmost_cpy <- look_up mfind l ;; sl hd leftmost_cpy ;;;
    r <- from x (gr hs) ;; rightmost_cpy <- look_up mfind r ;; sr hd rightmost_cpy ;;;
    for_pairs o_copy_node map.
End Ordered.

(** *** sequenced indices: sequenced_index.hpp:721-737 *)
Section Sequenced.
Variables jn jp : node.
Variable x : sst.
Fixpoint q_copy_loop (fuel : nat) (org cpy : node) : SM unit :=
  match fuel with
  | O => ub
  | S f =>
    next_org <- from x (get_next org) ;;
    next_cpy <- look_up mfind next_org ;;
    set_next cpy next_cpy ;;;
    set_prior next_cpy cpy ;;;
    if next_org =? hs then ret tt else q_copy_loop f next_org next_cpy
  end.
(** [n]: the number of elements *)
Definition q_copy (n : nat) : SM unit :=
  for_pairs (fun _ cpy => q_place jn jp cpy) map ;;;
  q_copy_loop (S n) hs hd.
End Sequenced.

(** *** random access indices: random_access_index.hpp:808-824 *)
Section RandomAccess.
Variable ju : nat.
Variable x : rst.
(** [c] more rounds *)
Fixpoint r_copy_loop (c begin_org begin_cpy : nat) : RM unit :=
  match c with
  | O => ret tt
  | S c =>
    org <- from x (rd begin_org) ;;
    cpy <- look_up mfind org ;;
    put begin_cpy cpy ;;;
    r_copy_loop c (begin_org + 1) (begin_cpy + 1)
  end.
Definition r_copy : RM unit :=
  for_pairs (fun _ cpy => n_place ju cpy) map ;;;
  begin_org <- from x a_begin ;; end_org <- from x a_end ;; begin_cpy <- a_begin ;;
  r_copy_loop (end_org - begin_org) begin_org begin_cpy.
End RandomAccess.

(** *** hashed indices: hashed_index.hpp:842-935 *)
Section Hashed.
Import HashModel HashIdx.
Variable uniq : bool.
Variable jh : bptr * bptr.
Variable x : hst.
Variable a' : nat.           (* number of the bucket array of the copy *)
(** buckets.begin()+(buc_org-x.buckets.begin()); undefined for a pointer into no bucket array *)
Definition bucket_of (b : bptr) : HashModel.HM bptr :=
  match b with PB a i => if a =? arr x then ret (PB a' i) else ub | PN _ => ub end.
(** 848-877; first the body, without the last statements *)
Definition hu_copy_body (org cpy prev_org prev_cpy : node) : HashModel.HM unit :=
  set_pri (PN cpy) prev_cpy ;;;
  b <- from (hp x) (u_first_of_bucket org) ;;
  if b : bool then
    buc_org <- from (hp x) (nxt prev_org) ;; buc_cpy <- bucket_of buc_org ;;
    set_nxt prev_cpy buc_cpy ;;;
    set_pri buc_cpy cpy
  else set_nxt prev_cpy (PN cpy).
Fixpoint hu_copy_loop (fuel : nat) (org cpy : node) : HashModel.HM unit :=
  match fuel with
  | O => ub
  | S f =>
    prev_org <- from (hp x) (pri (PN org)) ;; prev_cpy <- look_up mfind prev_org ;;
    hu_copy_body org cpy prev_org prev_cpy ;;;
    if prev_org =? hs then ret tt else hu_copy_loop f prev_org prev_cpy
  end.
(** 879-935 *)
Definition hn_copy_body (org cpy next_org next_cpy : node) : HashModel.HM unit :=
  b <- from (hp x) (n_first_of_bucket next_org) ;;
  if b : bool then
    buc_org <- from (hp x) (nxt org) ;; buc_cpy <- bucket_of buc_org ;;
    set_nxt cpy buc_cpy ;;;
    set_pri buc_cpy next_cpy ;;;
    set_pri (PN next_cpy) cpy
  else
    n <- from (hp x) (nxt org) ;;
    (if bptr_eqb n (PN next_org) then set_nxt cpy (PN next_cpy)
     else
       n <- from (hp x) (nxt org) ;; y <- from (hp x) (pfrom n) ;; y_cpy <- look_up mfind y ;;
       set_nxt cpy (PN y_cpy)) ;;;
    p <- from (hp x) (pri (PN next_org)) ;;
    if negb (p =? org) then
      p <- from (hp x) (pri (PN next_org)) ;; p_cpy <- look_up mfind p ;; set_pri (PN next_cpy) p_cpy
    else set_pri (PN next_cpy) cpy.
Fixpoint hn_copy_loop (fuel : nat) (org cpy : node) : HashModel.HM unit :=
  match fuel with
  | O => ub
  | S f =>
    next_org <- from (hp x) (n_after org) ;; next_cpy <- look_up mfind next_org ;;
    hn_copy_body org cpy next_org next_cpy ;;;
    if next_org =? hs then ret tt else hn_copy_loop f next_org next_cpy
  end.
(** [n]: x.size() *)
Definition h_copy (n : nat) : HashModel.HM unit :=
  for_pairs (fun _ cpy h => Ret tt (put_node cpy jh h)) map ;;;
  if negb (n =? 0) then (if uniq then hu_copy_loop else hn_copy_loop) (S n) hs hd else ret tt.
End Hashed.
End Indices.

(** ** containers *)
Section Container.
Variable V : Type.
Variable throws : nat -> bool.
Variable pick : list node -> node.
Variables hs hd : node.
Notation stacks := (stack throws pick hs (mem_world V)).
Notation stackd := (stack throws pick hd (mem_world V)).
Notation layers := (layer_of throws pick hs).
Notation layerd := (layer_of throws pick hd).

(** *** the copy constructors of the indices *)

(** They leave the link fields of the header of an ordered or sequenced index uninitialized; the array of a
    random access index has room for the elements, and is marked as holding that many; that of a hashed
    index is empty: ord_index_impl.hpp:735-749,
    sequenced_index.hpp:682-691, random_access_index.hpp:767-779 with rnd_index_ptr_array.hpp:50-58,
    hashed_index.hpp:770-788 with bucket_array.hpp:142-147; index_base.hpp:94-96.
    [n]: x.size(), [w]: the memory; header() is allocated there. *)
Fixpoint blank (n : nat) (w : bst V) (cs : list (code V)) : St (stacks cs) -> St (stackd cs) :=
  match cs return St (stacks cs) -> St (stackd cs) with
  | [] => fun _ => (0, w)
  | c :: cs =>
    match c return St (layers c (stacks cs)) -> St (layerd c (stackd cs)) with
    | Ordered _ _ _ _ junk => fun x =>
        (fun y => if y =? hd then Some junk else None, blank n w cs (snd x))
    | Sequenced _ jn jp => fun x =>
        (mkS (fun y => if y =? hd then Some jn else None) (fun y => if y =? hd then Some jp else None) 0 0,
         blank n w cs (snd x))
    | RandomAccess _ _ => fun x =>
        (mkR (fun p => if p =? n then Some hd else if p <? n then Some null else None)
             (fun y => if y =? hd then Some n else None) n n 0 (S n) 0, blank n w cs (snd x))
    | Hashed _ _ _ _ _ _ _ => fun x =>
        let b := HashModel.bcount (HashIdx.bc (fst x)) in
        (HashIdx.mkH (HashModel.new_array 0 b hd (fun _ => None)) 0 b (HashIdx.ml (fst x)) (HashIdx.pol (fst x)),
         blank n w cs (snd x))
    end
  end.
(** how often they allocate memory *)
Definition allocates (c : code V) : nat := match c with RandomAccess _ _ => 1 | Hashed _ _ _ _ _ _ _ => 1 | _ => 0 end.
Fixpoint ticks (n : nat) : BM V unit := match n with O => ret tt | S n => tick throws ;;; ticks n end.

(** *** super::copy_(x,map): every index does its own work, then calls its super.
    index_base.hpp:101-103 does nothing. *)
Section Copy_.
Variable mfind : node -> option node.
Variable map : cmap.
Variable n : nat.                        (* x.size() *)
Fixpoint copy_ (cs : list (code V)) : St (stacks cs) -> M (St (stackd cs)) unit :=
  match cs return St (stacks cs) -> M (St (stackd cs)) unit with
  | [] => fun _ => ret tt
  | c :: cs =>
    match c return St (layers c (stacks cs)) -> M (St (layerd c (stackd cs))) unit with
    | Ordered _ _ _ rk junk => fun x =>
        ownM (o_copy mfind map hs hd rk junk (fst x)) ;;; supM (copy_ cs (snd x))
    | Sequenced _ jn jp => fun x =>
        ownM (q_copy mfind map hs hd jn jp (fst x) n) ;;; supM (copy_ cs (snd x))
    | RandomAccess _ ju => fun x =>
        ownM (r_copy mfind map ju (fst x)) ;;; supM (copy_ cs (snd x))
    | Hashed _ _ _ uniq jh _ _ => fun x =>
        ownM (lensM HashIdx.hp HashIdx.set_hp (h_copy mfind map hs hd uniq jh (fst x) 0 n)) ;;; supM (copy_ cs (snd x))
    end
  end.
End Copy_.

(** *** copy_construct_from: multi_index_container.hpp:619-636 *)
Variable cs : list (code V).
Notation boxs := (box throws pick hs cs).
Notation boxd := (box throws pick hd cs).

(** clone: copy_map.hpp:139-161 *)
Definition clone (x : node) : BM V node :=
  y <- allocate_node throws pick ;;
  try_catch (v <- value x ;; construct_value throws y v) (deallocate_node y ;;; throw) ;;;
  ret y.
(** ~copy_map, when it has not been released: copy_map.hpp:91-100 *)
Fixpoint destroy_copies (m : cmap) : BM V unit :=
  match m with
  | [] => ret tt
  | (_, y) :: m => destroy_value y ;;; deallocate_node y ;;; destroy_copies m
  end.
(** for(const_iterator it=x.begin(),it_end=x.end();it!=it_end;++it)map.copy_clone(it.get_node());
    the destructor of the map is run if this throws *)
Fixpoint clone_loop (fuel : nat) (it : node) (m : cmap) : M (St boxs) cmap :=
  if it =? hs then ret m
  else
    match fuel with
    | O => ub
    | S f =>
      y <- basM boxs (try_catch (clone it) (destroy_copies m ;;; throw)) ;;
      n <- size boxs ;;
      let m := m ++ [(it, y)] in
      let m := if length m =? n then cm_sort m else m in
      it <- next_at throws pick hs (mem_world V) cs 0 it ;;
      clone_loop f it m
    end.
(** begin() of the first index *)
Definition first_begin (cs : list (code V)) : M (St (stacks cs)) node :=
  match cs return M (St (stacks cs)) node with
  | [] => ub
  | c :: cs => i_begin throws pick hs c (stacks cs)
  end.
(** multi_index_container(const multi_index_container&): multi_index_container.hpp:285-294, run on the
    copied container; the new container is the result.  Its header has been allocated.  The first
    calls which may throw are the allocations of the indices, then that of the map. *)
Definition copy_construct : M (St boxs) (St boxd) :=
  basM boxs (ticks (list_sum (List.map allocates cs))) ;;;
  basM boxs (tick throws) ;;;
  n <- size boxs ;;
  it <- first_begin cs ;;
  m <- clone_loop n it [] ;;
  fun s =>
    match copy_ (cm_find hs hd m) m n cs s (blank n (bget boxs s) cs s) with
    | Ret _ d => Ret (cset boxd n d) s
    | Exn d => Exn s
    | UB => UB
    end.
End Container.
