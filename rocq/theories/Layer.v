(** The stack of indices of a container.

    multi_index_container<Value, indexed_by<I0,...,In>> derives from index I0, which derives
    from I1, ..., which derives from index_base (multi_index_container.hpp:73-97,
    detail/base_type.hpp, detail/index_base.hpp).  Every protected operation of an index
    (insert_, extract_, replace_, ...) does its own work and calls the one of its [super].
    The model keeps this structure: a [Layer] is a state with these operations, the bottom
    layer is [base], and each kind of index is a function from its super layer to a layer. *)
From Verif Require Import Prelude.
Set Implicit Arguments.

Section Base.
Variable V : Type.
(** [throws i]: does the [i]-th call to code which may throw (allocation, construction,
    assignment, comparison, hashing, ...) throw? *)
Variable throws : nat -> bool.
(** [pick used]: the address returned by the allocator when [used] are in use *)
Variable pick : list node -> node.

(** Memory shared by all containers.  [mem] lists the allocated nodes: [None] when no value
    has been constructed in them (fresh nodes, and header nodes), [Some v] otherwise; the
    link fields of the nodes live in the states of the layers.  [tk] counts the calls which
    may throw. *)
Record bst := mkB { mem : list (node * option V); tk : nat }.
Definition BM := M bst.

Fixpoint look (m : list (node * option V)) (x : node) : option (option V) :=
  match m with
  | [] => None
  | (y, o) :: m => if x =? y then Some o else look m x
  end.
Definition mset (m : list (node * option V)) (x : node) (o : option V) :=
  map (fun p => if x =? fst p then (fst p, o) else p) m.
Definition mdel (m : list (node * option V)) (x : node) :=
  filter (fun p => negb (x =? fst p)) m.

(** one call which may throw *)
Definition tick : BM unit :=
  fun b => let b' := mkB (mem b) (S (tk b)) in if throws (tk b) then Exn b' else Ret tt b'.

(** allocate_node, multi_index_container.hpp:643-646 *)
Definition allocate_node : BM node :=
  tick ;;;
  fun b => let x := pick (map fst (mem b)) in Ret x (mkB ((x, None) :: mem b) (tk b)).
(** deallocate_node, multi_index_container.hpp:648-652; undefined if there is no node or the
    value has not been destroyed *)
Definition deallocate_node (x : node) : BM unit :=
  fun b => match look (mem b) x with
           | Some None => Ret tt (mkB (mdel (mem b) x) (tk b))
           | _ => UB
           end.
(** construct_value, multi_index_container.hpp:654-667: the constructor may throw *)
Definition construct_value (x : node) (v : V) : BM unit :=
  tick ;;;
  fun b => match look (mem b) x with
           | Some None => Ret tt (mkB (mset (mem b) x (Some v)) (tk b))
           | _ => UB
           end.
(** destroy_value, multi_index_container.hpp:669-673 *)
Definition destroy_value (x : node) : BM unit :=
  fun b => match look (mem b) x with
           | Some (Some _) => Ret tt (mkB (mset (mem b) x None) (tk b))
           | _ => UB
           end.
(** delete_node_, multi_index_container.hpp:958-962 *)
Definition delete_node (x : node) : BM unit := destroy_value x ;;; deallocate_node x.
(** x->value() as an rvalue, index_node_base.hpp:54-63 *)
Definition value (x : node) : BM V :=
  fun b => match look (mem b) x with Some (Some v) => Ret v b | _ => UB end.
(** x->value()=v; the assignment may throw, and is assumed to leave x->value() unchanged
    then.  index_base.hpp:178-188 *)
Definition assign (x : node) (v : V) : BM unit :=
  _ <- value x ;; tick ;;; fun b => Ret tt (mkB (mset (mem b) x (Some v)) (tk b)).
(** mod(x->value()) with mod a user-supplied function which may throw, leaving the value
    [fx v] behind in that case.  multi_index_container.hpp:1036,1064,1078,1092 *)
Definition apply_mod (f fx : V -> V) (x : node) : BM unit :=
  v <- value x ;;
  try_catch (tick ;;; fun b => Ret tt (mkB (mset (mem b) x (Some (f v))) (tk b)))
            (fun b => Exn (mkB (mset (mem b) x (Some (fx v))) (tk b))).

(** lvalue_tag, rvalue_tag: a node must be created ([Lvalue]: the moved-from state of an rvalue
    argument is not modelled); emplaced_tag: the node already exists; a pointer to another
    container: the node is to be taken from it.  index_base.hpp:105-163 *)
Inductive variant := Lvalue | Emplaced | Transfer.

(** Operations of an index seen by the index deriving from it.  The out-parameter
    [final_node_type*& x] of insert_ is passed in and returned (second component).
    The hinted and the unhinted overloads of insert_ are distinguished by the [option]. *)
Record Layer := mkL {
  St : Type;
  bget : St -> bst; bset : bst -> St -> St;
  cget : St -> nat; cset : nat -> St -> St;        (* node_count of the container *)
  l_insert : V -> option node -> node -> variant -> M St (node * node);
  l_extract : node -> M St unit;
  l_delete_all : M St unit;
  l_clear : M St unit;
  l_replace : V -> node -> M St bool;
  l_modify : node -> M St bool;
  l_modify_rb : node -> M St bool;
  l_check_rb : node -> M St bool }.

(** running an operation of the memory, of the own part, of the super part of a state *)
Definition lensM {S T A} (g : S -> T) (p : T -> S -> S) (m : M T A) : M S A :=
  fun s => match m (g s) with
           | Ret a t => Ret a (p t s)
           | Exn t => Exn (p t s)
           | UB => UB
           end.
Definition basM (L : Layer) {A} (m : BM A) : M (St L) A := lensM (bget L) (bset L) m.
Definition ownM {T S A} (m : M T A) : M (T * S) A := lensM fst (fun t s => (t, snd s)) m.
Definition supM {T S A} (m : M S A) : M (T * S) A := lensM snd (fun t s => (fst s, t)) m.
Definition size (L : Layer) : M (St L) nat := fun s => Ret (cget L s) s.
Definition set_count (L : Layer) (n : nat) : M (St L) unit := fun s => Ret tt (cset L n s).

(** ** index_base *)

(** What lies below the bottom layer: the memory, or (when elements are transferred from
    another container) the memory together with the other container. [take] is
    p->final_extract_for_transfer_, index_base.hpp:138-145. *)
Record World := mkW {
  WS : Type; wget : WS -> bst; wset : bst -> WS -> WS; take : node -> M WS unit }.
Definition mem_world : World := mkW (fun b : bst => b) (fun b _ => b) (fun _ => ub).
(** extract_for_transfer_, multi_index_container.hpp:944-949 *)
Definition extract_for_transfer (L : Layer) (x : node) : M (St L) unit :=
  n <- size L ;; set_count L (n - 1) ;;; l_extract L x.
Definition container_world (L : Layer) : World :=
  mkW (bget L) (bset L) (extract_for_transfer L).

(** index_base<Value,...>, detail/index_base.hpp:47-331, and the node_count of
    multi_index_container *)
Definition base (W : World) : Layer :=
  let bs := fun s : nat * WS W => wget W (snd s) in
  let bp := fun b (s : nat * WS W) => (fst s, wset W b (snd s)) in
  @mkL (nat * WS W)%type bs bp
    fst (fun n s => (n, snd s))
    (* index_base.hpp:105-163 *)
    (fun v _ x var =>
       match var with
       | Lvalue =>
         lensM bs bp
           (x <- allocate_node ;;
            try_catch (construct_value x v) (deallocate_node x ;;; throw) ;;;
            ret (x, x))
       | Emplaced => ret (x, x)
       | Transfer => lensM snd (fun w s => (fst s, w)) (take W x) ;;; ret (x, x)
       end)
    (* 165-166 *) (fun _ => ret tt)
    (* an index always redefines delete_all_nodes_ *) (ret tt)
    (* 168 *) (ret tt)
    (* 178-188 *) (fun v x => lensM bs bp (assign x v) ;;; ret true)
    (* 190-194 *) (fun _ => ret true) (fun _ => ret true) (fun _ => ret true).

(** ** What a layer must guarantee *)
Variable dv : V.  (** value reported for nodes without value; irrelevant *)

Definition val (b : bst) (x : node) : V :=
  match look (mem b) x with Some (Some v) => v | _ => dv end.
Definition live (b : bst) (x : node) : Prop := exists v, look (mem b) x = Some (Some v).

(** [s] with the counter of calls at [n] *)
Definition adv (L : Layer) (n : nat) (s : St L) : St L := bset L (mkB (mem (bget L s)) n) s.

(** no call between [n] and [m] threw; the last one, and no other, did *)
Definition quiet (n m : nat) : Prop := n <= m /\ forall i, n <= i < m -> throws i = false.
Definition blown (n m : nat) : Prop := exists i, m = S i /\ quiet n i /\ throws i = true.

(** Specification of one kind of index: its abstract contents [kv] enumerate the elements
    in some order ([kel]); [kok val a]: the arrangement is legal for the values [val];
    [ksame]: arrangements which a failed operation may exchange; [krem x]: removal;
    [kins val hint a x a']: [a'] is [a] with [x] at its place; [kmov val x a a']: [a'] is
    [a] after giving x its new value; [kconf v w]: the index does not admit both values. *)
Record kind := mkK {
  kv : Type;
  kel : kv -> list node;
  kok : (node -> V) -> kv -> Prop;
  ksame : (node -> V) -> kv -> kv -> Prop;
  krem : node -> kv -> kv;
  kins : (node -> V) -> option node -> kv -> node -> kv -> Prop;
  kmov : (node -> V) -> node -> kv -> kv -> Prop;
  kconf : V -> V -> Prop }.

(** the same for a stack of indices *)
Record Spec := mkSpec {
  AV : Type;
  els : AV -> list (list node);
  aok : (node -> V) -> AV -> Prop;
  asame : (node -> V) -> AV -> AV -> Prop;
  arem : node -> AV -> AV;
  ains : variant -> (node -> V) -> option node -> AV -> node -> AV -> Prop;
  amov : (node -> V) -> node -> AV -> AV -> Prop;
  aconf : V -> V -> Prop;
  aready : variant -> node -> AV -> Prop }.

Definition cons_spec (k : kind) (S : Spec) : Spec :=
  @mkSpec (kv k * AV S)
    (fun a => kel k (fst a) :: els S (snd a))
    (fun val a => kok k val (fst a) /\ aok S val (snd a))
    (fun val a a' => ksame k val (fst a) (fst a') /\ asame S val (snd a) (snd a'))
    (fun x a => (krem k x (fst a), arem S x (snd a)))
    (fun var val h a x a' => kins k val h (fst a) x (fst a') /\ ains S var val h (snd a) x (snd a'))
    (fun val x a a' => kmov k val x (fst a) (fst a') /\ amov S val x (snd a) (snd a'))
    (fun v w => kconf k v w \/ aconf S v w)
    (fun var x a => aready S var x (snd a)).

(** nodes of the container and their memory.  [hd] is the header node. *)
Record inv (hd : node) (b : bst) (ls : list (list node)) (lk : list node) : Prop := mkI {
  i_nd : NoDup lk;
  i_perm : Forall (fun l => Permutation l lk) ls;
  i_live : forall x, In x lk -> live b x;
  i_mem : NoDup (null :: map fst (mem b));
  i_hd : look (mem b) hd = Some None }.

Definition hint_ok (hd : node) (hint : option node) (lk : list node) : Prop :=
  match hint with None => True | Some p => p = hd \/ In p lk end.
Definition ready (S : Spec) (b : bst) (var : variant) (x : node) (v : V) (a : AV S) (lk : list node) : Prop :=
  match var with
  | Lvalue => x = null
  | _ => look (mem b) x = Some (Some v) /\ ~ In x lk /\ aready S var x a
  end.
(** the node linked, and the memory, after a successful insertion *)
Definition inserted (b b' : bst) (var : variant) (x : node) (v : V) (x' : node) : Prop :=
  match var with
  | Lvalue => x' = pick (map fst (mem b)) /\ mem b' = (x', Some v) :: mem b
  | _ => x' = x /\ mem b' = mem b
  end.

(** everything was in order before the value of [x] changed *)
Definition nearly (S : Spec) (val : node -> V) (x : node) (a : AV S) : Prop :=
  exists val0, (forall y, y <> x -> val0 y = val y) /\ aok S val0 a.

Record OK (hd : node) (L : Layer) (S : Spec) (rep : St L -> AV S -> Prop) (shell : St L -> Prop) : Prop := mkOK {
  (* state components *)
  o_bb : forall b s, bget L (bset L b s) = b;
  o_gs : forall s, bset L (bget L s) s = s;
  o_ss : forall b b' s, bset L b (bset L b' s) = bset L b s;
  o_bc : forall n s, bget L (cset L n s) = bget L s;
  o_cb : forall b s, cget L (bset L b s) = cget L s;
  o_cc : forall n s, cget L (cset L n s) = n;
  o_repb : forall b s a, rep s a -> rep (bset L b s) a;
  o_repc : forall n s a, rep s a -> rep (cset L n s) a;
  o_shellb : forall b s, shell s -> shell (bset L b s);
  o_shellc : forall n s, shell s -> shell (cset L n s);
  o_shell : forall s a, rep s a -> shell s;
  (* abstract side *)
  o_ext : forall val val' a, aok S val a -> (forall x l, In l (els S a) -> In x l -> val x = val' x) -> aok S val' a;
  o_okrem : forall val x a, aok S val a -> aok S val (arem S x a);
  o_elrem : forall s a x, rep s a -> els S (arem S x a) = map (remove Nat.eq_dec x) (els S a);
  o_same : forall val a, asame S val a a;
  o_sameel : forall val a a', asame S val a a' -> Forall2 (@Permutation node) (els S a) (els S a');
  o_sameok : forall val a a', asame S val a a' -> aok S val a -> aok S val a';
  o_sameext : forall val val' a a', asame S val a a' ->
      (forall x l, In l (els S a) -> In x l -> val x = val' x) -> asame S val' a a';
  o_insel : forall var val h a x a', ains S var val h a x a' ->
      Forall2 (fun l l' => Permutation l' (x :: l)) (els S a) (els S a');
  o_movrem : forall val x a a', amov S val x a a' -> arem S x a' = arem S x a;
  o_movel : forall val x a a', amov S val x a a' -> Forall2 (@Permutation node) (els S a) (els S a');
  (* operations *)
  o_insert : forall s a lk v hint x var,
    rep s a -> inv hd (bget L s) (els S a) lk -> cget L s = length lk ->
    aok S (val (bget L s)) a -> hint_ok hd hint lk -> ready S (bget L s) var x v a lk ->
    wp (l_insert L v hint x var)
       (fun r s' => exists a', rep s' a' /\ cget L s' = cget L s /\
          quiet (tk (bget L s)) (tk (bget L s')) /\
          ((fst r = snd r /\ inserted (bget L s) (bget L s') var x v (snd r) /\
            (forall y, In y lk -> ~ aconf S v (val (bget L s) y)) /\
            ains S var (val (bget L s')) hint a (snd r) a' /\ aok S (val (bget L s')) a') \/
           (fst r <> snd r /\ snd r = x /\ In (fst r) lk /\ aconf S v (val (bget L s) (fst r)) /\
            asame S (val (bget L s)) a a' /\ mem (bget L s') = mem (bget L s))))
       (fun s' => exists a', rep s' a' /\ cget L s' = cget L s /\ asame S (val (bget L s)) a a' /\
          mem (bget L s') = mem (bget L s) /\ blown (tk (bget L s)) (tk (bget L s')))
       s;
  o_extract : forall s a x,
    rep s a -> Forall (fun l => NoDup l /\ In x l /\ length l <= Datatypes.S (cget L s)) (els S a) ->
    wp (l_extract L x)
       (fun _ s' => rep s' (arem S x a) /\ cget L s' = cget L s /\ bget L s' = bget L s)
       (fun _ => False) s;
  o_delete : forall s a l ls,
    rep s a -> els S a = l :: ls -> length l <= cget L s -> NoDup (map fst (mem (bget L s))) ->
    (forall x, In x l -> live (bget L s) x) ->
    wp (l_delete_all L)
       (fun _ s' => shell s' /\ cget L s' = cget L s /\ tk (bget L s') = tk (bget L s) /\
          mem (bget L s') = filter (fun p => negb (existsb (Nat.eqb (fst p)) l)) (mem (bget L s)))
       (fun _ => False) s;
  o_clear : forall s, shell s ->
    wp (l_clear L)
       (fun _ s' => (exists a, rep s' a /\ Forall (eq []) (els S a) /\ forall val, aok S val a) /\
          cget L s' = cget L s /\ bget L s' = bget L s)
       (fun _ => False) s;
  o_replace : forall s a lk v x,
    rep s a -> inv hd (bget L s) (els S a) lk -> cget L s = length lk ->
    aok S (val (bget L s)) a -> In x lk ->
    wp (l_replace L v x)
       (fun r s' => cget L s' = cget L s /\ quiet (tk (bget L s)) (tk (bget L s')) /\
          if r : bool then
            mem (bget L s') = mset (mem (bget L s)) x (Some v) /\
            (forall y, In y lk -> y <> x -> ~ aconf S v (val (bget L s) y)) /\
            exists a', rep s' a' /\ amov S (val (bget L s')) x a a' /\ aok S (val (bget L s')) a'
          else
            mem (bget L s') = mem (bget L s) /\ rep s' a /\
            exists y, In y lk /\ y <> x /\ aconf S v (val (bget L s) y))
       (fun s' => rep s' a /\ cget L s' = cget L s /\ mem (bget L s') = mem (bget L s) /\
          blown (tk (bget L s)) (tk (bget L s')))
       s;
  o_modify : forall s a lk x,
    rep s a -> inv hd (bget L s) (els S a) lk -> cget L s = length lk ->
    nearly S (val (bget L s)) x a -> In x lk ->
    wp (l_modify L x)
       (fun r s' => cget L s' = cget L s /\ quiet (tk (bget L s)) (tk (bget L s')) /\
          mem (bget L s') = mem (bget L s) /\
          if r : bool then
            (forall y, In y lk -> y <> x -> ~ aconf S (val (bget L s) x) (val (bget L s) y)) /\
            exists a', rep s' a' /\ amov S (val (bget L s)) x a a' /\ aok S (val (bget L s)) a'
          else
            rep s' (arem S x a) /\
            exists y, In y lk /\ y <> x /\ aconf S (val (bget L s) x) (val (bget L s) y))
       (fun s' => rep s' (arem S x a) /\ cget L s' = cget L s /\ mem (bget L s') = mem (bget L s) /\
          blown (tk (bget L s)) (tk (bget L s')))
       s;
  o_modify_rb : forall s a lk x,
    rep s a -> inv hd (bget L s) (els S a) lk -> cget L s = length lk ->
    nearly S (val (bget L s)) x a -> In x lk ->
    wp (l_modify_rb L x)
       (fun r s' => cget L s' = cget L s /\ quiet (tk (bget L s)) (tk (bget L s')) /\
          mem (bget L s') = mem (bget L s) /\
          if r : bool then
            (forall y, In y lk -> y <> x -> ~ aconf S (val (bget L s) x) (val (bget L s) y)) /\
            exists a', rep s' a' /\ amov S (val (bget L s)) x a a' /\ aok S (val (bget L s)) a'
          else
            rep s' a /\ exists y, In y lk /\ y <> x /\ aconf S (val (bget L s) x) (val (bget L s) y))
       (fun s' => rep s' a /\ cget L s' = cget L s /\ mem (bget L s') = mem (bget L s) /\
          blown (tk (bget L s)) (tk (bget L s')))
       s;
  o_check_rb : forall s a lk x,
    rep s a -> inv hd (bget L s) (els S a) lk -> cget L s = length lk ->
    nearly S (val (bget L s)) x a -> In x lk ->
    wp (l_check_rb L x)
       (fun r s' => rep s' a /\ cget L s' = cget L s /\ quiet (tk (bget L s)) (tk (bget L s')) /\
          mem (bget L s') = mem (bget L s) /\ (r = true -> aok S (val (bget L s)) a) /\
          (aok S (val (bget L s)) a -> r = true))
       (fun s' => rep s' a /\ cget L s' = cget L s /\ mem (bget L s') = mem (bget L s) /\
          blown (tk (bget L s)) (tk (bget L s')))
       s }.
End Base.
