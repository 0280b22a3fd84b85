(** Model of saving and loading of containers.
    Sources (all under /repo/include/boost):
      multi_index_container.hpp, multi_index/detail/ord_index_impl.hpp, multi_index/sequenced_index.hpp,
      multi_index/random_access_index.hpp, multi_index/hashed_index.hpp, multi_index/detail/index_base.hpp,
      multi_index/detail/index_saver.hpp, multi_index/detail/index_loader.hpp

    An archive is what can be read from it: values together with the addresses of the nodes they were in, which is
    how pointers to nodes are recognized, and pointers.  Old versions of the format (version<4) are not modelled. *)
From Verif Require Import Prelude Layer SeqModel SeqIdx OrdIdx RndModel RndIdx Stack View Container Conv Client Match Save SaveSeq SaveOrd RndLoad Copy.
Set Implicit Arguments.
Local Notation size := Layer.size.

(** [sv_items]: "item" and "position" of the elements; [sv_header]: "position" of the header; [sv_order]: the
    pointers *)
Record stored (V : Type) := mkSv { sv_count : nat; sv_items : list (node * V); sv_header : node; sv_order : archive }.

Section Serial.
Variable V : Type.
Variable throws : nat -> bool.
Variable pick : list node -> node.
Variable hd : node.
Notation stack := (stack throws pick hd (mem_world V)).
Notation layer_of := (layer_of throws pick hd).

(** index_saver::save with a saver in state [m], whose new state is returned too *)
Definition saved {S} (xs : list node) (m : mst) : M S (archive * mst) :=
  fun s => match save xs m with Ret ar m' => Ret (ar, m') s | Exn _ => Exn s | UB => UB end.
(** super::save_(ar,version,sm): every index does its own work, then calls its super.  ord_index_impl.hpp:1460-1466
    and 1477-1489, sequenced_index.hpp:854-860, random_access_index.hpp:945-951, hashed_index.hpp:1236-1242 with
    bucket_array.hpp (nothing is written), index_base.hpp:199-200. *)
Fixpoint save_ (cs : list (code V)) (m : mst) : M (St (stack cs)) (archive * mst) :=
  match cs return M (St (stack cs)) (archive * mst) with
  | [] => ret ([], m)
  | c :: cs =>
    match c return M (St (layer_of c (stack cs))) (archive * mst) with
    | Ordered key lt uniq _ _ =>
        if uniq then supM (save_ cs m)
        else
          xs <- duplicates throws key lt hd (stack cs) ;; r <- saved xs m ;;
          r' <- supM (save_ cs (snd r)) ;; ret (fst r ++ fst r', snd r')
    | Sequenced _ jn jp =>
        xs <- enum throws pick hd (Sequenced V jn jp) (stack cs) ;; r <- saved xs m ;;
        r' <- supM (save_ cs (snd r)) ;; ret (fst r ++ fst r', snd r')
    | RandomAccess _ ju =>
        xs <- enum throws pick hd (RandomAccess V ju) (stack cs) ;; r <- saved xs m ;;
        r' <- supM (save_ cs (snd r)) ;; ret (fst r ++ fst r', snd r')
    | Hashed _ _ _ _ _ _ _ => supM (save_ cs m)
    end
  end.

(** super::load_(ar,version,lm): ord_index_impl.hpp:1468-1475 and 1491-1500, sequenced_index.hpp:862-871,
    random_access_index.hpp:953-968, hashed_index.hpp:1244-1249, index_base.hpp:202-203; [ents]: entries of the
    loader; what is left of the archive is returned. *)
Section Load_.
Variable ents : list node.
Fixpoint load_ (cs : list (code V)) (ar : archive) : M (St (stack cs)) archive :=
  match cs return M (St (stack cs)) archive with
  | [] => ret ar
  | c :: cs =>
    match c return M (St (layer_of c (stack cs))) archive with
    | Ordered key lt uniq rk _ =>
        if uniq then supM (load_ cs ar)
        else ar <- load ents (rearranger throws key lt rk hd (stack cs)) ar ;; supM (load_ cs ar)
    | Sequenced _ _ _ =>
        ar <- ownM (load ents (fun p x => s_rearranger hd (ptr p) x) ar) ;; supM (load_ cs ar)
    | RandomAccess _ _ =>
        ar <- sync (stack cs) (r_load throws ents ar) ;; supM (load_ cs ar)
    | Hashed _ _ _ _ _ _ _ => supM (load_ cs ar)
    end
  end.
End Load_.

Variable cs : list (code V).
Notation box := (box throws pick hd cs).

(** *** save: multi_index_container.hpp:1119-1138 *)
(** what is in the entries of the saver before they are used *)
Variables (jprev : nat -> nat) (jord : nat -> bool) (jtop jent : nat -> nat) (jpiles : nat).
Fixpoint items (xs : list node) : M (St box) (list (node * V)) :=
  match xs with
  | [] => ret []
  | x :: xs => v <- basM box (value x) ;; r <- items xs ;; ret ((x, v) :: r)
  end.
(** the elements are taken in the order of the first index; the saver allocates memory once.  Writing to the
    archive does not throw in the model. *)
Definition c_save : M (St box) (stored V) :=
  basM box (tick throws) ;;;
  n <- size box ;;
  it <- first_begin throws pick hd cs ;;
  xs <- walk (Conv.next_at throws pick hd (mem_world V) cs 0) hd n it ;;
  its <- items xs ;;
  r <- save_ cs (added xs jprev jord jtop jent jpiles) ;;
  ret (mkSv n its hd (fst r)).

(** *** load: multi_index_container.hpp:1140-1190 *)
(** the loop, 1176-1184: [n] more rounds.  Reading an item is a call which may throw; it does throw when there are
    no more.  The pairs returned are positions in the archive and nodes. *)
Fixpoint load_items (n : nat) (its : list (node * V)) : M (St box) (list (node * node)) :=
  match n with
  | O => ret []
  | S n =>
    match its with
    | [] => throw
    | (p, v) :: its =>
      basM box (tick throws) ;;;
      r <- c_insert box v (Some hd) ;;
      if snd r : bool then m <- load_items n its ;; ret ((p, fst r) :: m) else throw
    end
  end.
(** where a pointer read from the archive points to: the node at whose position it was loaded, or some other object *)
Definition track (hs : node) (m : list (node * node)) (x : node) : node :=
  if x =? hs then hd
  else match List.find (fun e : node * node => fst e =? x) m with Some e => snd e | None => null end.
(** the loader allocates memory once, 1174.  The result is where pointers which follow in the archive point to *)
Definition c_load_track (a : stored V) : M (St box) (node -> node) :=
  c_clear box ;;;
  basM box (tick throws) ;;;
  m <- load_items (sv_count a) (sv_items a) ;;
  load_ (List.map snd m) cs (List.map (option_map (track (sv_header a) m)) (sv_order a)) ;;;
  ret (track (sv_header a) m).
Definition c_load (a : stored V) : M (St box) unit := c_load_track a ;;; ret tt.

(** *** iterators: bidir_node_iterator.hpp:77-90, rnd_node_iterator.hpp:87-100, hash_index_iterator.hpp:76-119 *)
(** They are written after the container, as a pointer to the node; end() of a bucket is null.  [tr]: where pointers
    read from the archive point to. *)
Definition save_iterator (x : node) : node := x.
Definition load_iterator (tr : node -> node) (p : node) : node := tr p.
End Serial.
