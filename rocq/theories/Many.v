(** Model of programs with any number of containers: construction and destruction, copies, moves, swap and assignment.
    Sources (all under /repo/include/boost):
      multi_index_container.hpp:172-215,285-305,338-390,987-1020,
      multi_index/detail/header_holder.hpp, multi_index/detail/ord_index_impl.hpp:751-761,909-933,
      multi_index/sequenced_index.hpp:693-700,790-807, multi_index/random_access_index.hpp:781-790,877-898,
      multi_index/hashed_index.hpp:790-806,1026-1056

    The memory is common to all containers; each of their states has the current one in it ([sync]).  The links of different
    containers are in separate parts of the state, a container finding its own through its header node. *)
From Verif Require Import Prelude Layer LayerBase Stack View Container ContOk Iops History ContSpec Client Transfer Conv Pair Copy.
From Verif Require SeqModel RndModel HashModel HashIdx.
Set Implicit Arguments.

(** ** swap_, swap_elements_ of the indices *)
Section Exchange.
Variable V : Type.
Variable throws : nat -> bool.
Variable pick : list node -> node.
Variables hA hB : node.                  (* header(), x.header() before *)
Notation stackA := (stack throws pick hA (mem_world V)).
Notation stackB := (stack throws pick hB (mem_world V)).
Notation layerA := (layer_of throws pick hA).
Notation layerB := (layer_of throws pick hB).

(** random_access_index.hpp:880,893 (ptrs.swap(x.ptrs)) with rnd_index_ptr_array.hpp:106-119: size_, capacity_ and spc are
    exchanged; the latter tells where the pointers are ([slot], [rbs], [rbrk]).  The fields up() of the nodes are found
    through the pointers. *)
Definition swap_ptrs (x y : RndModel.rst) : RndModel.rst * RndModel.rst :=
  (RndModel.mkR (RndModel.slot y) (RndModel.rup y) (RndModel.rsz y) (RndModel.rcap y) (RndModel.rbs y) (RndModel.rbrk y) (RndModel.rtk y),
   RndModel.mkR (RndModel.slot x) (RndModel.rup x) (RndModel.rsz x) (RndModel.rcap x) (RndModel.rbs x) (RndModel.rbrk x) (RndModel.rtk x)).
(** hashed_index.hpp:1034-1036,1048-1050 with bucket_array.hpp:170-181: buckets, mlf and max_load.  The links of nodes are found through the
    header. *)
Definition swap_buckets (x y : HashIdx.hst) : HashIdx.hst * HashIdx.hst :=
  (HashIdx.mkH (HashIdx.hp y) (HashIdx.arr y) (HashIdx.bc y) (HashIdx.ml y) (HashIdx.pol y),
   HashIdx.mkH (HashIdx.hp x) (HashIdx.arr x) (HashIdx.bc x) (HashIdx.ml x) (HashIdx.pol x)).

(** ord_index_impl.hpp:909-933, sequenced_index.hpp:790-807: there is nothing but the links, found through the header, and function
    objects.  These and those of hashed indices are part of [csA], [csB]; swap_ exchanges them, and swap_elements_ is used when they
    are the same.  Each index does its work, then calls its super; std::swap(node_count,x.node_count) comes last.
    The result is what is found in *this, whose header is [hB] now, and in x.
    The cases of different indices are not those of containers of the same type. *)
Fixpoint exchange (csA csB : list (code V)) : St (stackA csA) -> St (stackB csB) -> St (stackB csB) * St (stackA csA) :=
  match csA, csB return St (stackA csA) -> St (stackB csB) -> St (stackB csB) * St (stackA csA) with
  | [], [] => fun x y => ((fst y, snd y), (fst x, snd x))
  | cA :: csA, cB :: csB =>
    match cA, cB return St (layerA cA (stackA csA)) -> St (layerB cB (stackB csB)) ->
        St (layerB cB (stackB csB)) * St (layerA cA (stackA csA)) with
    | Ordered _ _ _ _ _, Ordered _ _ _ _ _ => fun x y =>
        let r := exchange csA csB (snd x) (snd y) in ((fst y, fst r), (fst x, snd r))
    | Sequenced _ _ _, Sequenced _ _ _ => fun x y =>
        let r := exchange csA csB (snd x) (snd y) in ((fst y, fst r), (fst x, snd r))
    | RandomAccess _ _, RandomAccess _ _ => fun x y =>
        let o := swap_ptrs (fst x) (fst y) in
        let r := exchange csA csB (snd x) (snd y) in ((fst o, fst r), (snd o, snd r))
    | Hashed _ _ _ _ _ _ _, Hashed _ _ _ _ _ _ _ => fun x y =>
        let o := swap_buckets (fst x) (fst y) in
        let r := exchange csA csB (snd x) (snd y) in ((fst o, fst r), (snd o, snd r))
    | _, _ => fun x y => (y, x)
    end
  | _, _ => fun x y => (y, x)
  end.
Lemma exchange_eq csA : forall csB x y, exchange csA csB x y = (y, x).
Proof.
  induction csA as [|cA csA IH]; intros [|cB csB]; cbn [exchange]; try reflexivity.
  - now intros (?, ?) (?, ?).
  - destruct cA, cB; try reflexivity; intros (x, x') (y, y'); cbn [fst snd]; rewrite IH; cbn [fst snd swap_ptrs swap_buckets]; try reflexivity.
    + now destruct x, y.
    + now destruct x, y.
Qed.
End Exchange.

(** containers of the same type, but for the values of function objects *)
Definition alike_code V (c c' : code V) : Prop :=
  match c, c' with
  | Ordered _ _ u r _, Ordered _ _ u' r' _ => u = u' /\ r = r'
  | Sequenced _ _ _, Sequenced _ _ _ => True
  | RandomAccess _ _, RandomAccess _ _ => True
  | Hashed _ _ _ u _ _ _, Hashed _ _ _ u' _ _ _ => u = u'
  | _, _ => False
  end.

Section Many.
Variable V : Type.
Variable throws : nat -> bool.
Variable pick : list node -> node.
Variable dv : V.
Notation box := (box throws pick).
(** mlf(1.0f), hashed_index.hpp:798 *)
Variable mlf1 : HashIdx.policy.

(** a container: its header, its indices with their function objects, its state *)
Record obj := mkObj { oh : node; oc : list (code V); os : St (box oh oc) }.
Record world := mkW { objs : list obj; wm : bst V }.
Definition sync (m : bst V) (o : obj) : obj := mkObj (oh o) (oc o) (bset (box (oh o) (oc o)) m (os o)).
Definition omem (o : obj) : bst V := bget (box (oh o) (oc o)) (os o).
Fixpoint remove_nth {A} (k : nat) (l : list A) : list A :=
  match l, k with
  | [], _ => []
  | _ :: l, O => l
  | y :: l, S k => y :: remove_nth k l
  end.
(** containers are numbered, the last constructed having number 0 *)
Definition on_world {A} (m : M (bst V) A) : M world A :=
  fun w => match m (wm w) with
           | Ret a b => Ret a (mkW (map (sync b) (objs w)) b)
           | Exn b => Exn (mkW (map (sync b) (objs w)) b)
           | UB => UB
           end.
Definition put (k : nat) (x : obj) (w : world) : world :=
  mkW (set_nth k x (map (sync (omem x)) (objs w))) (omem x).
Definition add (x : obj) (w : world) : world := mkW (x :: objs w) (wm w).

(** an operation of container number [k] *)
Definition at_obj {A} (k : nat) (m : forall h cs, M (St (box h cs)) A) : M world A :=
  fun w => match nth_error (objs w) k with
           | None => UB
           | Some x => match m (oh x) (oc x) (os x) with
                       | Ret a s => Ret a (put k (mkObj (oh x) (oc x) s) w)
                       | Exn s => Exn (put k (mkObj (oh x) (oc x) s) w)
                       | UB => UB
                       end
           end.
(** an operation moving elements from container number [k] to number [l] *)
Definition between {A} (k l : nat) (m : forall hs hd css csd, M (St (box hs css) * St (box hd csd)) A) : M world A :=
  fun w => match nth_error (objs w) k, nth_error (objs w) l with
           | Some x, Some y =>
             let upd p := put l (mkObj (oh y) (oc y) (snd p)) (put k (mkObj (oh x) (oc x) (fst p)) w) in
             match m (oh x) (oh y) (oc x) (oc y) (os x, os y) with
             | Ret a p => Ret a (upd p)
             | Exn p => Exn (upd p)
             | UB => UB
             end
           | _, _ => UB
           end.

(** multi_index_container(): the header is allocated (header_holder.hpp:36-37, multi_index_container.hpp:174), then the
    indices are constructed; if one of them throws then ~header_holder is run, header_holder.hpp:38 *)
Definition create (cs : list (code V)) : M world unit :=
  h <- on_world (allocate_node throws pick) ;;
  on_world (try_catch (ticks throws (list_sum (map (@allocates V) cs))) (deallocate_node h ;;; throw)) ;;;
  fun w => Ret tt (add (mkObj h cs (fresh throws pick h (mem_world V) cs (wm w))) w).
(** multi_index_container(const multi_index_container& x), 285-294, x being number [k] *)
Definition copy_create (k : nat) : M world unit :=
  h <- on_world (allocate_node throws pick) ;;
  fun w => match nth_error (objs w) k with
           | None => UB
           | Some x =>
             match copy_construct throws pick (oh x) h (oc x) (os x) with
             | Ret d s => Ret tt (add (mkObj h (oc x) d) (put k (mkObj (oh x) (oc x) s) w))
             | Exn s => (on_world (deallocate_node h) ;;; throw) (put k (mkObj (oh x) (oc x) s) w)
             | UB => UB
             end
           end.
(** swap(x), 987-1012, of numbers [k] and [l].  swap_elements_, 1014-1020, is the same for equal function objects *)
Definition swap (k l : nat) : M world unit :=
  fun w => match nth_error (objs w) k, nth_error (objs w) l with
           | Some x, Some y =>
             let r := exchange throws pick (oh x) (oh y) (oc x) (oc y) (os x) (os y) in
             Ret tt (mkW (set_nth k (mkObj (oh y) (oc y) (fst r)) (set_nth l (mkObj (oh x) (oc x) (snd r)) (objs w))) (wm w))
           | _, _ => UB
           end.
(** ~multi_index_container(), 338-341 *)
Definition destroy (k : nat) : M world unit :=
  fun w => match nth_error (objs w) k with
           | None => UB
           | Some x => match c_destroy (oh x) (box (oh x) (oc x)) (os x) with
                       | Ret _ s => let m := bget (box (oh x) (oc x)) s in Ret tt (mkW (remove_nth k (map (sync m) (objs w))) m)
                       | Exn _ | UB => UB
                       end
           end.
(** the indices of a container constructed with do_not_copy_elements_tag: ord_index_impl.hpp:751-761, sequenced_index.hpp:693-700,
    random_access_index.hpp:781-790, hashed_index.hpp:790-806 *)
Definition bare (c : code V) : code V :=
  match c with Hashed key eq hash uniq jh n0 pol => Hashed key eq hash uniq jh 0 mlf1 | _ => c end.
(** multi_index_container(multi_index_container&& x), 296-305, x being number [k] *)
Definition move_create (k : nat) : M world unit :=
  fun w => match nth_error (objs w) k with
           | None => UB
           | Some x => (create (map bare (oc x)) ;;; swap 0 (S k)) w
           end.
(** operator=(const multi_index_container& x), 359-369, of numbers [k] and [l]; y is destroyed at the end *)
Definition copy_assign (k l : nat) : M world unit := copy_create l ;;; swap (S k) 0 ;;; destroy 0.
(** operator=(multi_index_container&& x), 371-390, for equal allocators *)
Definition move_assign (k l : nat) : M world unit := swap k l.

(** ** programs *)
Inductive wop :=
| Create (cs : list (code V)) | CopyCreate (k : nat) | MoveCreate (k : nat)
| Swap (k l : nat) | CopyAssign (k l : nat) | MoveAssign (k l : nat) | Destroy (k : nat)
| At (k : nat) (o : op V (nat * iop V))             (* an operation of one container *)
| Between (k l : nat) (o : op1 V).                  (* moving elements *)
Definition wrun (o : wop) : M world res :=
  match o with
  | Create cs => create cs ;;; ret Nothing
  | CopyCreate k => copy_create k ;;; ret Nothing
  | MoveCreate k => move_create k ;;; ret Nothing
  | Swap k l => swap k l ;;; ret Nothing
  | CopyAssign k l => copy_assign k l ;;; ret Nothing
  | MoveAssign k l => move_assign k l ;;; ret Nothing
  | Destroy k => destroy k ;;; ret Nothing
  | At k o => at_obj k (fun h cs => @exec_box V throws pick h cs o)
  | Between k l o => between k l (fun hs hd css csd => @run1 V throws pick hs hd css csd o)
  end.

(** The client's ledger: the elements [lks] of each container, the nodes [nh] of its handles. *)
Definition alike (x y : obj) : Prop := Forall2 (@alike_code V) (oc x) (oc y).
Definition wallowed (w : world) (lks : list (list node)) (nh : list node) (o : wop) : Prop :=
  match o with
  | Create cs => Forall (@code_ok V) cs /\ cs <> []
  | CopyCreate k | MoveCreate k | Destroy k => k < length lks
  | Swap k l | CopyAssign k l | MoveAssign k l => exists x y, nth_error (objs w) k = Some x /\ nth_error (objs w) l = Some y /\ alike x y
  | At k o => exists x lk, nth_error (objs w) k = Some x /\ nth_error lks k = Some lk /\ @allowed_box V throws pick (oh x) (oc x) (os x) lk nh o
  | Between k l o => k <> l /\ exists x y ls lk, nth_error (objs w) k = Some x /\ nth_error (objs w) l = Some y /\
      nth_error lks k = Some ls /\ nth_error lks l = Some lk /\ @allowed1 V throws pick (oh x) (oh y) (oc x) (oc y) (os x, os y) ls lk nh o
  end.
Definition oseq (o : obj) : option (list (list node)) := @sequences V throws pick (oh o) (oc o) (os o).
Definition at_ {A} (k : nat) (l : list (list A)) : list A := nth k l [].
(** what the client sees in container number [k] *)
Definition found (k : nat) (w : world) : list node := match nth_error (objs w) k with Some x => elems (oseq x) | None => [] end.
Definition wledger (o : wop) (r : option res) (w' : world) (lks : list (list node)) (nh : list node) : list (list node) * list node :=
  match o, r with
  | Create _, Some _ => ([] :: lks, nh)
  | CopyCreate k, Some _ => (found 0 w' :: lks, nh)
  | MoveCreate k, Some _ => (at_ k lks :: set_nth k [] lks, nh)
  | Swap k l, Some _ | MoveAssign k l, Some _ => (set_nth k (at_ l lks) (set_nth l (at_ k lks) lks), nh)
  | CopyAssign k l, Some _ => (set_nth k (found k w') lks, nh)
  | Destroy k, Some _ => (remove_nth k lks, nh)
  | At k o, r => (set_nth k (fst (ledger o r (at_ k lks) nh)) lks, snd (ledger o r (at_ k lks) nh))
  | Between k l o, r =>
      match nth_error (objs w') k, nth_error (objs w') l with
      | Some x', Some y' =>
          let '(ls', lk', nh') := @ledger1 V throws pick (oh x') (oh y') (oc x') (oc y') o r (os x', os y') (at_ k lks) (at_ l lks) nh in
          (set_nth l lk' (set_nth k ls' lks), nh')
      | _, _ => (lks, nh)
      end
  | _, None => (lks, nh)
  end.
(** [reachw w lks nh]: some program arrives at [w], [lks] being the elements of the containers, [nh] the nodes owned by node
    handles; any of the operations may have thrown *)
Inductive reachw : world -> list (list node) -> list node -> Prop :=
| rw_start n : reachw (mkW [] (mkB [] n)) [] []
| rw_ret w lks nh o r w' : reachw w lks nh -> wallowed w lks nh o -> wrun o w = Ret r w' ->
    reachw w' (fst (wledger o (Some r) w' lks nh)) (snd (wledger o (Some r) w' lks nh))
| rw_exn w lks nh o w' : reachw w lks nh -> wallowed w lks nh o -> wrun o w = Exn w' ->
    reachw w' (fst (wledger o None w' lks nh)) (snd (wledger o None w' lks nh)).
End Many.
