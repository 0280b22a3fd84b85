(** Model of the use of allocators: where each block of memory comes from and to which allocator it is returned.
    Source: /repo/include/boost/multi_index_container.hpp:179-416,573-675,683-987,989-1032 and the parts of the indices and
    of detail/ that allocate: detail/auto_space.hpp, detail/bucket_array.hpp, detail/rnd_index_ptr_array.hpp,
    detail/copy_map.hpp, detail/header_holder.hpp, detail/node_handle.hpp, hashed_index.hpp:751-797,1026-1059,1456-1570,
    random_access_index.hpp:755-792,876-897.

    Only memory is modelled here: which elements are equivalent, in which order they are and when an array grows is left
    open (any decision may be taken, see [choose]); the other models say what happens there. *)
From Verif Require Import Prelude.
Set Implicit Arguments.

(** What a user chooses.  Allocators are numbers; two are equal (operator==) when the numbers are, and then each may
    return the memory of the other.
    [layout]: the indices of the container that keep an array beside the nodes, from the outermost: [true] a hashed index
    (bucket_array), [false] a random access index (random_access_index_ptr_array).  Ordered, ranked and sequenced indices keep none.
    [pocca], [pocma], [pocs]: propagate_on_container_copy_assignment, _move_assignment, _swap.
    [soccc]: select_on_container_copy_construction. *)
Record traits := mkTr { layout : list bool; pocca : bool; pocma : bool; pocs : bool; soccc : nat -> nat }.

(** detail/auto_space.hpp:47-91: al_, data_ ([None]: n_ is 0) *)
Record space := mkSp { sal : nat; sdata : option nat }.
(** multi_index_container: bfm_allocator::member, bfm_header::member, the nodes of the elements, and the array of each index of [layout] *)
Record cont := mkC { cal : nat; chdr : nat; cnodes : list nat; carr : list space }.
(** detail/node_handle.hpp:204-210: node and space, when not empty *)
Definition handle := option (nat * nat).

(** [heap]: the blocks allocated and not yet returned, each with the allocator it comes from.
    [plan]: the decisions to come.  [cts], [hds]: the containers and node handles alive, by name. *)
Record ast := mkA { heap : list (nat * nat); next : nat; plan : list bool; cts : list (nat * cont); hds : list (nat * handle) }.
Notation AM := (M ast).

(** a decision that depends on things not modelled: does user code (or the allocator) throw, does an array grow, is an element banned *)
Definition choose : AM bool :=
  fun s => match plan s with
           | [] => Ret false s
           | b :: p => Ret b (mkA (heap s) (next s) p (cts s) (hds s))
           end.
Definition may_throw : AM unit := b <- choose ;; if b then throw else ret tt.

(** alloc_traits::allocate: a new block, or an exception *)
Definition allocate (a : nat) : AM nat :=
  may_throw ;;; fun s => Ret (next s) (mkA ((next s, a) :: heap s) (S (next s)) (plan s) (cts s) (hds s)).
Fixpoint remove1 (b a : nat) (l : list (nat * nat)) : option (list (nat * nat)) :=
  match l with
  | [] => None
  | (b', a') :: r =>
      if (b' =? b) && (a' =? a) then Some r
      else match remove1 b a r with Some r' => Some ((b', a') :: r') | None => None end
  end.
(** alloc_traits::deallocate: undefined unless the block is allocated and comes from an allocator equal to this one *)
Definition deallocate (b a : nat) : AM unit :=
  fun s => match remove1 b a (heap s) with
           | Some h => Ret tt (mkA h (next s) (plan s) (cts s) (hds s))
           | None => UB
           end.

(** associative lists of live objects *)
Fixpoint find {A} (l : list (nat * A)) (i : nat) : option A :=
  match l with [] => None | (j, x) :: r => if j =? i then Some x else find r i end.
Fixpoint set {A} (l : list (nat * A)) (i : nat) (x : A) : list (nat * A) :=
  match l with [] => [] | (j, y) :: r => if j =? i then (j, x) :: r else (j, y) :: set r i x end.
Fixpoint del {A} (l : list (nat * A)) (i : nat) : list (nat * A) :=
  match l with [] => [] | (j, y) :: r => if j =? i then r else (j, y) :: del r i end.
Definition get (i : nat) : AM cont := fun s => match find (cts s) i with Some c => Ret c s | None => UB end.
Definition put (i : nat) (c : cont) : AM unit := fun s => Ret tt (mkA (heap s) (next s) (plan s) (set (cts s) i c) (hds s)).
Definition new (i : nat) (c : cont) : AM unit := fun s => Ret tt (mkA (heap s) (next s) (plan s) ((i, c) :: cts s) (hds s)).
Definition drop (i : nat) : AM unit := fun s => Ret tt (mkA (heap s) (next s) (plan s) (del (cts s) i) (hds s)).
Definition hget (i : nat) : AM handle := fun s => match find (hds s) i with Some c => Ret c s | None => UB end.
Definition hput (i : nat) (c : handle) : AM unit := fun s => Ret tt (mkA (heap s) (next s) (plan s) (cts s) (set (hds s) i c)).
Definition hnew (i : nat) (c : handle) : AM unit := fun s => Ret tt (mkA (heap s) (next s) (plan s) (cts s) ((i, c) :: hds s)).
Definition hdrop (i : nat) : AM unit := fun s => Ret tt (mkA (heap s) (next s) (plan s) (cts s) (del (hds s) i)).

(** auto_space's constructor, destructor and swap, auto_space.hpp:56-60,74-85 *)
Definition space_new (a n : nat) : AM space :=
  if n =? 0 then ret (mkSp a None) else b <- allocate a ;; ret (mkSp a (Some b)).
Definition space_delete (x : space) : AM unit :=
  match sdata x with Some b => deallocate b (sal x) | None => ret tt end.
Definition space_swap (swap_allocators : bool) (x y : space) : space * space :=
  if swap_allocators then (mkSp (sal y) (sdata y), mkSp (sal x) (sdata x))
  else (mkSp (sal x) (sdata y), mkSp (sal y) (sdata x)).

Section Model.
Variable tr : traits.

(** the arrays of the indices, each constructed with allocator [a] and after that of the indices inside it;
    hashed_index.hpp:756,773,794, random_access_index.hpp:758,769,783.  Their sizes are never 0 (bucket_array.hpp:142, rnd_index_ptr_array.hpp:56). *)
Fixpoint delete_spaces (l : list space) : AM unit :=
  match l with [] => ret tt | x :: r => space_delete x ;;; delete_spaces r end.
Fixpoint arrays_new (a : nat) (ks : list bool) : AM (list space) :=
  match ks with
  | [] => ret []
  | _ :: r => l <- arrays_new a r ;; try_catch (x <- space_new a 1 ;; ret (x :: l)) (delete_spaces l ;;; throw)
  end.
(** bfm_allocator([al]), bfm_header(), super(...), node_count(0), where the indices use [a] for their arrays *)
Definition base_new (al a : nat) : AM cont :=
  h <- allocate al ;;
  try_catch (l <- arrays_new a (layout tr) ;; ret (mkC al h [] l)) (deallocate h al ;;; throw).
(** destructors of super and of header_holder, header_holder.hpp:37 *)
Definition base_delete (c : cont) : AM unit := delete_spaces (carr c) ;;; deallocate (chdr c) (cal c).
Fixpoint delete_nodes (l : list nat) (a : nat) : AM unit :=
  match l with [] => ret tt | b :: r => deallocate b a ;;; delete_nodes r a end.
(** ~multi_index_container, 338-341 *)
Definition destroy (c : cont) : AM unit := delete_nodes (cnodes c) (cal c) ;;; base_delete c.
(** clear_, 968-973: arrays are kept (bucket_array.hpp:161-166, rnd_index_ptr_array.hpp:99-104) *)
Definition clear (i : nat) : AM unit :=
  c <- get i ;; delete_nodes (cnodes c) (cal c) ;;; put i (mkC (cal c) (chdr c) [] (carr c)).

(** copy_map: its own array, and [k] clones.  copy_map.hpp:84-103,136-165.  When an exception is thrown the clones are
    deallocated in reverse order here. *)
Fixpoint clones (al k : nat) : AM (list nat) :=
  match k with
  | O => ret []
  | S k' => b <- allocate al ;;
            try_catch may_throw (deallocate b al ;;; throw) ;;;
            try_catch (l <- clones al k' ;; ret (b :: l)) (deallocate b al ;;; throw)
  end.
(** copy_construct_from, 620-637, and the same in 585-592.  [may_throw]: super::copy_ *)
Definition clone_all (al k : nat) : AM (list nat) :=
  x <- space_new al k ;;
  l <- try_catch (l <- clones al k ;; try_catch may_throw (delete_nodes l al ;;; throw) ;;; ret l) (space_delete x ;;; throw) ;;
  space_delete x ;;; ret l.
Definition with_nodes (c : cont) (l : list nat) : cont := mkC (cal c) (chdr c) l (carr c).
(** multi_index_container(const multi_index_container&,const allocator_type&), 308-317.  The arrays use x.get_allocator(). *)
Definition copy_al (x : cont) (al : nat) : AM cont :=
  c <- base_new al (cal x) ;;
  try_catch (l <- clone_all al (length (cnodes x)) ;; ret (with_nodes c l)) (base_delete c ;;; throw).
(** multi_index_container(const multi_index_container&), 284-294 *)
Definition copy (x : cont) : AM cont := copy_al x (soccc tr (cal x)).

(** the members array by array: bucket_array.hpp:168-181, rnd_index_ptr_array.hpp:106-119 *)
Fixpoint spaces_swap (b : bool) (l m : list space) : list space * list space :=
  match l, m with
  | x :: l', y :: m' =>
      let (x', y') := space_swap b x y in let (l'', m'') := spaces_swap b l' m' in (x' :: l'', y' :: m'')
  | _, _ => (l, m)
  end.
(** swap_elements_, 1025-1031, hashed_index.hpp:1044-1059, random_access_index.hpp:889-897: allocators of nodes stay, those of arrays as auto_space.hpp:66-72 *)
Definition swap_elements (c x : cont) : cont * cont :=
  let (l, m) := spaces_swap (pocs tr) (carr c) (carr x) in
  (mkC (cal c) (chdr x) (cnodes x) l, mkC (cal x) (chdr c) (cnodes c) m).
(** swap_, 995-1012, hashed_index.hpp:1026-1042, random_access_index.hpp:876-887 *)
Definition swap_with (b : bool) (c x : cont) : cont * cont :=
  let (l, m) := spaces_swap b (carr c) (carr x) in
  (mkC (if b then cal x else cal c) (chdr x) (cnodes x) l, mkC (if b then cal c else cal x) (chdr c) (cnodes c) m).

(** multi_index_container(multi_index_container&,const allocator_type&,unequal_alloc_move_ctor_tag), 574-605 *)
Definition unequal_move (i al : nat) : AM cont :=
  x <- get i ;;
  c <- base_new al (cal x) ;;
  try_catch (l <- clone_all al (length (cnodes x)) ;; clear i ;;; ret (with_nodes c l))
            (clear i ;;; base_delete c ;;; throw).
(** multi_index_container(multi_index_container&&,const allocator_type&), 319-336 *)
Definition move_al (i al : nat) : AM cont :=
  x <- get i ;;
  c <- base_new al (cal x) ;;
  if al =? cal x then
    let (c', x') := swap_elements c x in put i x' ;;; ret c'
  else
    y <- try_catch (unequal_move i al) (base_delete c ;;; throw) ;;
    let (c', y') := swap_elements c y in destroy y' ;;; ret c'.
(** multi_index_container(multi_index_container&&), 296-306 *)
Definition move (i : nat) : AM cont :=
  x <- get i ;;
  c <- base_new (cal x) (cal x) ;;
  let (c', x') := swap_elements c x in put i x' ;;; ret c'.

(** operator=(const multi_index_container&), 359-369 *)
Definition copy_assign (i j : nat) : AM unit :=
  t <- get i ;; x <- get j ;;
  y <- copy_al x (if pocca tr then cal x else cal t) ;;
  let (t', y') := swap_with true t y in put i t' ;;; destroy y'.
(** swap_ of containers [i] and [j] *)
Definition swap_ids (b : bool) (i j : nat) : AM unit :=
  t <- get i ;; x <- get j ;; let (t', x') := swap_with b t x in put i t' ;;; put j x'.
(** operator=(multi_index_container&&), 371-391 *)
Definition move_assign (i j : nat) : AM unit :=
  t <- get i ;; x <- get j ;;
  if pocma tr then swap_ids true i j
  else if cal t =? cal x then swap_ids false i j
  else y <- move_al j (cal t) ;; t <- get i ;; let (t', y') := swap_with false t y in put i t' ;;; destroy y'.

(** unchecked_rehash of the hashed index number [p], hashed_index.hpp:1456-1570.  The new array uses get_allocator(). *)
Definition rehash (i p : nat) : AM unit :=
  c <- get i ;;
  cpy <- space_new (cal c) 1 ;;
  try_catch (if length (cnodes c) =? 0 then ret tt
             else h <- space_new (cal c) (length (cnodes c)) ;;
                  try_catch (q <- space_new (cal c) (length (cnodes c)) ;;
                             try_catch may_throw (space_delete q ;;; throw) ;;; space_delete q)
                            (space_delete h ;;; throw) ;;;
                  space_delete h)
            (space_delete cpy ;;; throw) ;;;
  match nth_error (carr c) p with
  | None => ub
  | Some x => let (x', cpy') := space_swap (pocs tr) x cpy in
              put i (mkC (cal c) (chdr c) (cnodes c) (firstn p (carr c) ++ x' :: skipn (S p) (carr c))) ;;;
              space_delete cpy'
  end.
(** set_capacity of the random access index number [p], rnd_index_ptr_array.hpp:130-137.  The new array uses the allocator of the old one. *)
Definition set_capacity (i p : nat) : AM unit :=
  c <- get i ;;
  match nth_error (carr c) p with
  | None => ub
  | Some x => y <- space_new (sal x) 1 ;;
              let (x', y') := space_swap (pocs tr) x y in
              put i (mkC (cal c) (chdr c) (cnodes c) (firstn p (carr c) ++ x' :: skipn (S p) (carr c))) ;;;
              space_delete y'
  end.
Definition resize (i p : nat) (k : bool) : AM unit := if k then rehash i p else set_capacity i p.
(** what insert_ of the indices does to their arrays before the element is known to be accepted: reserve_for_insert
    (hashed_index.hpp:845-857), room_for_one (random_access_index.hpp:818-826), then possibly an exception or a ban *)
Fixpoint grow (i p : nat) (ks : list bool) : AM bool :=
  match ks with
  | [] => may_throw ;;; b <- choose ;; ret (negb b)
  | k :: r => g <- choose ;; (if g then resize i p k else ret tt) ;;; may_throw ;;;
              b <- choose ;; if b then ret false else grow i (S p) r
  end.
(** insert_, 690-702, index_base.hpp:106-131 *)
Definition insert (i : nat) : AM unit :=
  ok <- grow i 0 (layout tr) ;;
  if (ok : bool) then
    c <- get i ;; b <- allocate (cal c) ;;
    try_catch may_throw (deallocate b (cal c) ;;; throw) ;;;
    put i (with_nodes c (b :: cnodes c))
  else ret tt.
(** emplace_, 784-814, and insert_ref_, 714-741 *)
Definition emplace (i : nat) : AM unit :=
  c <- get i ;; b <- allocate (cal c) ;;
  ok <- try_catch (may_throw ;;; grow i 0 (layout tr)) (deallocate b (cal c) ;;; throw) ;;
  c <- get i ;;
  if (ok : bool) then put i (with_nodes c (b :: cnodes c)) else deallocate b (cal c).
Fixpoint insert_n (i n : nat) : AM unit := match n with O => ret tt | S n' => insert i ;;; insert_n i n' end.
(** the range constructor, 217-282: [n] elements.  With [n] = 0 also the constructors of 179-215. *)
Definition construct (i al n : nat) : AM unit :=
  c <- base_new al al ;; new i c ;;;
  try_catch (insert_n i n) (c <- get i ;; drop i ;;; destroy c ;;; throw).
(** operator=(std::initializer_list<Value>), 394-408.  The local container x is number 0. *)
Definition init_assign (i n : nat) : AM unit :=
  t <- get i ;;
  c <- base_new (cal t) (cal t) ;; new 0 c ;;;
  try_catch (insert_n 0 n) (c <- get 0 ;; drop 0 ;;; destroy c ;;; throw) ;;;
  x <- get 0 ;; t <- get i ;;
  let (x', t') := swap_elements x t in drop 0 ;;; put i t' ;;; destroy x'.
(** erase_, 950-961, of element number [n] *)
Definition erase (i n : nat) : AM unit :=
  c <- get i ;;
  match nth_error (cnodes c) n with
  | None => ret tt
  | Some b => put i (with_nodes c (firstn n (cnodes c) ++ skipn (S n) (cnodes c))) ;;; deallocate b (cal c)
  end.
(** extract_, 937-942, of element number [n], into a new node handle [h]; node_handle.hpp:153-156 *)
Definition extract (i n h : nat) : AM unit :=
  c <- get i ;;
  match nth_error (cnodes c) n with
  | None => ret tt
  | Some b => put i (with_nodes c (firstn n (cnodes c) ++ skipn (S n) (cnodes c))) ;;; hnew h (Some (b, cal c))
  end.
(** insert_nh_, 753-769, release_node, node_handle.hpp:158-164 *)
Definition insert_handle (i h : nat) : AM unit :=
  x <- hget h ;;
  match x with
  | None => ret tt
  | Some (b, _) =>
      ok <- grow i 0 (layout tr) ;;
      if (ok : bool) then c <- get i ;; hput h None ;;; put i (with_nodes c (b :: cnodes c)) else ret tt
  end.
(** transfer_, 771-782, extract_for_transfer_, 944-949: splice and merge of element number [n] of [j] into [i] *)
Definition transfer (i j n : nat) : AM unit :=
  x <- get j ;;
  match nth_error (cnodes x) n with
  | None => ret tt
  | Some b =>
      ok <- grow i 0 (layout tr) ;;
      if (ok : bool) then
        x <- get j ;; put j (with_nodes x (firstn n (cnodes x) ++ skipn (S n) (cnodes x))) ;;;
        c <- get i ;; put i (with_nodes c (b :: cnodes c))
      else ret tt
  end.
(** arrays used during one operation only, such as sorting: random_access_index.hpp:668-703 *)
Definition scratch (i n : nat) : AM unit :=
  c <- get i ;; x <- space_new (cal c) n ;; try_catch may_throw (space_delete x ;;; throw) ;;; space_delete x.

(** node_handle: move constructor, destructor, move assignment, swap; node_handle.hpp:57-98,116-137 *)
Definition handle_delete (x : handle) : AM unit := match x with Some (b, a) => deallocate b a | None => ret tt end.
Definition handle_move (h g : nat) : AM unit := x <- hget h ;; hput h None ;;; hnew g x.
Definition handle_destroy (h : nat) : AM unit := x <- hget h ;; hdrop h ;;; handle_delete x.
Definition handle_assign (h g : nat) : AM unit :=
  if h =? g then ret tt
  else x <- hget h ;; y <- hget g ;;
       handle_delete x ;;;
       hput h (match x, y with
               | Some (_, a), Some (b, a') => Some (b, if pocma tr then a' else a)
               | _, _ => y
               end) ;;;
       hput g None.
Definition handle_swap (h g : nat) : AM unit :=
  x <- hget h ;; y <- hget g ;;
  match x, y with
  | Some (b, a), Some (b', a') =>
      hput h (Some (b', if pocs tr then a' else a)) ;;; hput g (Some (b, if pocs tr then a else a'))
  | _, _ => hput h y ;;; hput g x
  end.

(** What a program does with containers and node handles. *)
Inductive op :=
| Construct (i al n : nat) | Copy (i j : nat) | CopyAl (i j al : nat) | Move (i j : nat) | MoveAl (i j al : nat)
| Destroy (i : nat) | CopyAssign (i j : nat) | MoveAssign (i j : nat) | InitAssign (i n : nat) | Swap (i j : nat)
| Insert (i : nat) | Emplace (i : nat) | Erase (i n : nat) | Clear (i : nat) | Resize (i p : nat) | Scratch (i n : nat)
| Transfer (i j n : nat) | Extract (i n h : nat) | InsertHandle (i h : nat)
| HandleNew (h : nat) | HandleMove (h g : nat) | HandleAssign (h g : nat) | HandleSwap (h g : nat) | HandleDestroy (h : nat).

Definition step (o : op) : AM unit :=
  match o with
  | Construct i al n => construct i al n
  | Copy i j => x <- get j ;; c <- copy x ;; new i c
  | CopyAl i j al => x <- get j ;; c <- copy_al x al ;; new i c
  | Move i j => c <- move j ;; new i c
  | MoveAl i j al => c <- move_al j al ;; new i c
  | Destroy i => c <- get i ;; drop i ;;; destroy c
  | CopyAssign i j => copy_assign i j
  | MoveAssign i j => move_assign i j
  | InitAssign i n => init_assign i n
  | Swap i j => swap_ids (pocs tr) i j
  | Insert i => insert i
  | Emplace i => emplace i
  | Erase i n => erase i n
  | Clear i => clear i
  | Resize i p => match nth_error (layout tr) p with Some k => resize i p k | None => ret tt end
  | Scratch i n => scratch i n
  | Transfer i j n => transfer i j n
  | Extract i n h => extract i n h
  | InsertHandle i h => insert_handle i h
  | HandleNew h => hnew h None
  | HandleMove h g => handle_move h g
  | HandleAssign h g => handle_assign h g
  | HandleSwap h g => handle_swap h g
  | HandleDestroy h => handle_destroy h
  end.

Definition live (s : ast) (i : nat) : bool := match find (cts s) i with Some _ => negb (i =? 0) | None => false end.
Definition fresh (s : ast) (i : nat) : bool := match find (cts s) i with Some _ => false | None => negb (i =? 0) end.
Definition hlive (s : ast) (i : nat) : bool := match find (hds s) i with Some _ => true | None => false end.
(** get_allocator, 410-414 *)
Definition al_of (s : ast) (i : nat) : nat := match find (cts s) i with Some c => cal c | None => 0 end.
Definition same_al (s : ast) (i j : nat) : bool := al_of s i =? al_of s j.
Definition handles_agree (s : ast) (h g : nat) : bool :=
  match find (hds s) h, find (hds s) g with Some (Some (_, a)), Some (Some (_, a')) => a =? a' | _, _ => true end.
(** The preconditions of the documentation: objects exist, containers swapped have equal allocators unless these are
    swapped too, and so for splicing and merging, and for inserting, assigning and swapping node handles. *)
Definition allowed (o : op) (s : ast) : bool :=
  match o with
  | Construct i _ _ => fresh s i
  | Copy i j | CopyAl i j _ | Move i j | MoveAl i j _ => fresh s i && live s j
  | CopyAssign i j | MoveAssign i j => live s i && live s j
  | Swap i j => live s i && live s j && (pocs tr || same_al s i j)
  | Destroy i | InitAssign i _ | Insert i | Emplace i | Erase i _ | Clear i | Resize i _ | Scratch i _ => live s i
  | Transfer i j _ => live s i && live s j && negb (i =? j) && same_al s i j
  | Extract i _ h => live s i && negb (hlive s h)
  | InsertHandle i h =>
      live s i && hlive s h && match find (hds s) h with Some (Some (_, a)) => a =? al_of s i | _ => true end
  | HandleNew h => negb (hlive s h)
  | HandleMove h g => hlive s h && negb (hlive s g)
  | HandleAssign h g => hlive s h && hlive s g && (pocma tr || handles_agree s h g)
  | HandleSwap h g => hlive s h && hlive s g && (pocs tr || handles_agree s h g)
  | HandleDestroy h => hlive s h
  end.

(** A program does only what is allowed, and catches exceptions.  [None]: undefined behaviour. *)
Definition exec (o : op) (s : ast) : option ast :=
  if allowed o s then match step o s with Ret _ s' => Some s' | Exn s' => Some s' | UB => None end else Some s.
Fixpoint run (os : list op) (s : ast) : option ast :=
  match os with [] => Some s | o :: r => match exec o s with Some s' => run r s' | None => None end end.
Definition start (p : list bool) : ast := mkA [] 0 p [] [].

(** Does the operation build a container with an allocator other than that of the container it copies or moves from? *)
Definition crossing (o : op) (s : ast) : bool :=
  match o with
  | Copy _ j => negb (soccc tr (al_of s j) =? al_of s j)
  | CopyAl _ j al | MoveAl _ j al => negb (al =? al_of s j)
  | CopyAssign i j => negb (pocca tr) && negb (same_al s i j)
  | MoveAssign i j => negb (pocma tr) && negb (same_al s i j)
  | _ => false
  end.
(** no operation of the program does *)
Fixpoint straight (os : list op) (s : ast) : Prop :=
  match os with
  | [] => True
  | o :: r => (allowed o s = true -> crossing o s = false) /\
              match exec o s with Some s' => straight r s' | None => True end
  end.
End Model.
