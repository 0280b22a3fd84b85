(** Model of invariant checking (BOOST_MULTI_INDEX_ENABLE_INVARIANT_CHECKING): invariant_ of each kind of index and of the
    container, which the guards at the beginning of the operations call when these end, normally or with an exception.
    Sources (under /repo/include/boost): multi_index_container.hpp:66-77,1198-1207, multi_index/detail/index_base.hpp:209,319,
    multi_index/detail/ord_index_impl.hpp:1082-1118, multi_index/hashed_index.hpp:1255-1280,
    multi_index/sequenced_index.hpp:877-895, multi_index/random_access_index.hpp:974-991,
    multi_index/ranked_index.hpp:336-340, multi_index/detail/ord_index_node.hpp:565-575.
    Comparisons and hash functions are called as anywhere else; that they throw here, in the destructor of a guard,
    is not modelled. *)
From Verif Require Import Prelude SeqModel OrdModel OrdIdx Layer LayerBase PosIdx SeqIdx RndModel RndIdx Stack View Iops.
From Verif Require HashModel HashIdx.
Set Implicit Arguments.

(** for(it=x;it!=last;++it,++s)if(!chk(it))return false;
    The result is s, or [None] when false is returned.  The loop is cut after [fuel] rounds: this is size(), and s!=size()
    is looked at afterwards. *)
Fixpoint count_all {S} (next : node -> M S node) (chk : node -> M S bool) (last : node) (fuel : nat) (x : node) : M S (option nat) :=
  if x =? last then ret (Some 0)
  else match fuel with
       | O => ret None
       | Datatypes.S f =>
           b <- chk x ;;
           if (b : bool) then y <- next x ;; r <- count_all next chk last f y ;; ret (option_map Datatypes.S r)
           else ret None
       end.
Definition is_count (r : option nat) (n : nat) : bool := match r with Some k => k =? n | None => false end.

(** black_count, ord_index_node.hpp:565-575 *)
Fixpoint black_loop (fuel : nat) (x root : node) (sum : nat) : HM nat :=
  match fuel with
  | O => ub
  | S f => c <- gc x ;; let sum := if is_black c then S sum else sum in
           if x =? root then ret sum else p <- gp x ;; black_loop f p root sum
  end.
Definition black_count (fuel : nat) (x root : node) : HM nat := if x =? null then ret 0 else black_loop fuel x root 0.

Section Inv.
Variable V : Type.
Variable throws : nat -> bool.
Variable pick : list node -> node.
Variable hd : node.
Notation layer_of := (layer_of throws pick hd).

Section Ordered.
Variable K : Type.
Variable key : V -> K.
Variable lt : K -> K -> bool.
Variable rk : bool.
Variable L : Layer V.
(** the body of the loop, ord_index_impl.hpp:1094-1109; the last check is AugmentPolicy::invariant, ranked_index.hpp:336-340, ordered_index.hpp:51 *)
Definition o_node_ok (len : nat) (root x : node) : OM L bool :=
  c <- ownM (gc x) ;; l <- ownM (gl x) ;; r <- ownM (gr x) ;;
  lr <- ownM (nonnull_red l) ;; rr <- ownM (nonnull_red r) ;;
  if is_red c && ((lr : bool) || (rr : bool)) then ret false
  else
  v <- oval L x ;;
  a <- (if l =? null then ret false else w <- oval L l ;; ret (lt (key v) (key w))) ;;
  if (a : bool) then ret false
  else
  b <- (if r =? null then ret false else w <- oval L r ;; ret (lt (key w) (key v))) ;;
  if (b : bool) then ret false
  else
  d <- (if (l =? null) && (r =? null) then n <- tree L (fun f => black_count f x root) ;; ret (negb (n =? len)) else ret false) ;;
  if (d : bool) then ret false
  else if rk then n <- ownM (gs x) ;; i <- ownM (node_size l) ;; j <- ownM (node_size r) ;; ret (n =? i + j + 1)
  else ret true.
(** ord_index_impl.hpp:1082-1118 *)
Definition o_invariant : OM L bool :=
  n <- supM (size L) ;; b <- o_begin hd L ;;
  if (n =? 0) || (b =? hd) then
    l <- ownM (gl hd) ;; r <- ownM (gr hd) ;; ret ((n =? 0) && (b =? hd) && (l =? hd) && (r =? hd))
  else
    s <- count_all (o_next L) (fun _ => ret true) hd n b ;;
    if negb (is_count s n) then ret false
    else
    leftmost <- ownM (gl hd) ;; root <- ownM (gp hd) ;; len <- tree L (fun f => black_count f leftmost root) ;;
    t <- count_all (o_next L) (o_node_ok len root) hd n b ;;
    if negb (is_count t n) then ret false
    else
    m <- tree L (fun f => minimum f root) ;;
    if negb (leftmost =? m) then ret false
    else rightmost <- ownM (gr hd) ;; m <- tree L (fun f => maximum f root) ;; ret (rightmost =? m).
End Ordered.
Arguments o_invariant {K} key lt rk L.

Section Positional.
Variable L : Layer V.
(** sequenced_index.hpp:877-895 *)
Definition s_node_ok (x : node) : M (sst * St L) bool :=
  n <- ownM (get_next x) ;; y <- ownM (get_prior n) ;;
  if negb (y =? x) then ret false
  else p <- ownM (get_prior x) ;; z <- ownM (get_next p) ;; ret (z =? x).
Definition s_invariant : M (sst * St L) bool :=
  n <- supM (size L) ;; b <- ownM (s_begin hd) ;;
  if (n =? 0) || (b =? hd) then
    x <- ownM (get_next hd) ;; y <- ownM (get_prior hd) ;; ret ((n =? 0) && (b =? hd) && (x =? hd) && (y =? hd))
  else r <- count_all (fun x => ownM (SeqModel.increment x)) s_node_ok hd n b ;; ret (is_count r n).

(** random_access_index.hpp:974-991: the end is checked too *)
Definition r_node_ok (x : node) : M (rst * St L) bool := p <- ownM (get_up x) ;; y <- ownM (RndModel.rd p) ;; ret (y =? x).
Definition r_invariant : M (rst * St L) bool :=
  n <- supM (size L) ;; cap <- ownM get_cap ;;
  if cap <? n then ret false
  else
  b <- ownM r_begin ;;
  if (n =? 0) || (b =? hd) then ret ((n =? 0) && (b =? hd))
  else
    r <- count_all (fun x => ownM (RndModel.increment x)) r_node_ok hd n b ;;
    match r with None => ret false | Some _ => e <- r_node_ok hd ;; ret ((e : bool) && is_count r n) end.
End Positional.
Arguments s_invariant L : clear implicits.
Arguments r_invariant L : clear implicits.

Section Hashed.
Variable K : Type.
Variable key : V -> K.
Variable hash : K -> nat.
Variable uniq : bool.
Variable L : Layer V.
Notation OM := (HashIdx.OM L).
(** find_bucket( *it)==buc *)
Definition h_node_ok (buc : nat) (x : node) : OM bool :=
  v <- HashIdx.oval L x ;; n <- HashIdx.bucket_count L ;; ret (HashModel.position (hash (key v)) n =? buc).
(** the loop over buckets, hashed_index.hpp:1266-1275: [k] more of them.  The result is s1; null is end(buc). *)
Fixpoint h_buckets (k buc s1 : nat) : OM (option nat) :=
  match k with
  | O => ret (Some s1)
  | S k' =>
      x <- HashIdx.begin_local L buc ;; n <- supM (size L) ;;
      r <- count_all (HashIdx.next_local uniq L) (h_node_ok buc) null n x ;;
      match r with
      | None => ret None
      | Some ss1 => z <- HashIdx.bucket_size uniq L buc ;;
                    if ss1 =? z then h_buckets k' (S buc) (s1 + ss1) else ret None
      end
  end.
(** hashed_index.hpp:1255-1280 *)
Definition h_invariant : OM bool :=
  n <- supM (size L) ;; b <- HashIdx.h_begin hd L ;;
  if (n =? 0) || (b =? hd) then ret ((n =? 0) && (b =? hd))
  else
    s0 <- count_all (HashIdx.h_next uniq L) (fun _ => ret true) hd n b ;;
    if negb (is_count s0 n) then ret false
    else m <- HashIdx.bucket_count L ;; s1 <- h_buckets m 0 0 ;; ret (is_count s1 n).
End Hashed.
Arguments h_invariant {K} key hash uniq L.

Definition i_invariant (c : code V) (L : Layer V) : M (St (layer_of c L)) bool :=
  match c return M (St (layer_of c L)) bool with
  | Ordered key lt _ rk _ => o_invariant key lt rk L
  | Sequenced _ _ _ => s_invariant L
  | RandomAccess _ _ => r_invariant L
  | Hashed key _ hash uniq _ _ _ => h_invariant key hash uniq L
  end.
Section World.
Variable W : World V.
Notation stack := (stack throws pick hd W).
(** each invariant_ ends with return super::invariant_(); index_base.hpp:209, multi_index_container.hpp:1198-1201 *)
Fixpoint invariant (cs : list (code V)) : M (St (stack cs)) bool :=
  match cs return M (St (stack cs)) bool with
  | [] => ret true
  | c :: cs => b <- i_invariant c (stack cs) ;;
               if (b : bool) then lift throws pick hd c (stack cs) (invariant cs) else ret false
  end.
End World.
End Inv.
