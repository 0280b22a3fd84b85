(** What safe mode should do, said without pointers.  An iterator is gone (it is invalid), at a position of an index, or it was loaded
    from an archive and nothing is known about it.  The positions of an index are those of its elements and its end. *)
From Coq Require Import ZArith Permutation.
From Verif Require Import Prelude Safe.

Inductive iter := Gone | Raw (n : node) | At (c : nat) (n : node).
(** the iterators; for each index the node of end() and those of its elements *)
Record world := W { iters : nat -> option iter; conts : nat -> option (node * list node) }.
Definition it w a x : Prop := iters w a = Some x.
(** position [i] of the index [c] is [n] *)
Definition pos w c i n : Prop := exists h l, conts w c = Some (h, l) /\ nth_error (l ++ [h]) i = Some n.
Definition element w c n : Prop := exists h l, conts w c = Some (h, l) /\ In n l.
Definition alive w a : Prop := iters w a <> None.
Definition fresh w a : Prop := a <> 0 /\ iters w a = None.
Definition exists_index w c : Prop := conts w c <> None.
(** alive, and it was not loaded from an archive *)
Definition checked w a : Prop := exists x, it w a x /\ forall n, x <> Raw n.
Definition weq (w w' : world) : Prop := (forall a, iters w a = iters w' a) /\ forall c, conts w c = conts w' c.

(** what the program has to see to itself *)
Definition allowed (o : op) (w : world) : Prop :=
  match o with
  | INew a => fresh w a
  | IMake a c n => fresh w a /\ exists i, pos w c i n
  | ICopy a b => fresh w a /\ alive w b
  | IAssign a b | IEqual a b => alive w a /\ alive w b
  | IDestroy a | IRestore a _ => alive w a
  | IDeref a | IIncr a | IDecr a | IAdvance a _ => checked w a
  | IDistance a b | IRange a b => checked w a /\ checked w b
  | IOutside p a b | IOutside2 p a b => checked w p /\ checked w a /\ checked w b
  | IOwner a c | IBelongs a c => alive w a /\ exists_index w c
  | CNew c _ => c <> 0 /\ conts w c = None
  | CInsert c _ n => exists_index w c /\ forall i, ~ pos w c i n
  | CExtract c n => element w c n
  | CTransfer c d _ _ n => c <> d /\ element w c n /\ exists_index w d /\ forall i, ~ pos w d i n
  | CReorder c l => exists h l0, conts w c = Some (h, l0) /\ Permutation l0 l
  | CClear c | CDestroy c => exists_index w c
  | CSwap c d => exists_index w c /\ exists_index w d
  | CErase c a r => fresh w r /\ checked w a /\ exists_index w c
  end.
(** iterators can be compared: they are of the same index, or one is loaded and the other one is not gone *)
Definition comparable (x y : iter) : Prop :=
  match x, y with
  | At c _, At d _ => c = d
  | Gone, _ | _, Gone => False
  | _, _ => True
  end.
(** the operation is correct; otherwise it should be reported *)
Definition correct (o : op) (w : world) : Prop :=
  match o with
  | IAssign _ b => ~ it w b Gone
  | IDeref a | IIncr a => exists c n, it w a (At c n) /\ element w c n
  | IDecr a => exists c n i, it w a (At c n) /\ pos w c (S i) n
  | IAdvance a z => exists c n i j m, it w a (At c n) /\ pos w c i n /\ pos w c j m /\ Z.of_nat j = (Z.of_nat i + z)%Z
  | IEqual a b => exists x y, it w a x /\ it w b y /\ comparable x y
  | IDistance a b => exists c n m, it w a (At c n) /\ it w b (At c m)
  | IOwner a c => (exists n, it w a (At c n)) \/ exists n, it w a (Raw n)
  | IRange a b => exists c n m i j, it w a (At c n) /\ it w b (At c m) /\ pos w c i n /\ pos w c j m /\ i <= j
  (* nothing is asked of [p] when the range is empty *)
  | IOutside p a b => exists c n m i j, it w a (At c n) /\ it w b (At c m) /\ pos w c i n /\ pos w c j m /\ i <= j /\
      (i < j -> exists q k, it w p (At c q) /\ pos w c k q /\ ~ i <= k < j)
  (* the elements of the range, an iterator of another type: nothing is asked unless both iterators are valid, and that of the
     position at an element *)
  | IOutside2 p a b => forall d q c n, it w p (At d q) -> element w d q -> it w a (At c n) ->
      exists m i j, it w b (At c m) /\ pos w c i n /\ pos w c j m /\ i <= j /\ forall k, i <= k < j -> ~ pos w c k q
  (* the indices of a container have the same end *)
  | IBelongs a c => (exists n, it w a (Raw n)) \/ exists d n h l l', it w a (At d n) /\ conts w d = Some (h, l) /\ conts w c = Some (h, l')
  | CErase c a _ => exists n, it w a (At c n) /\ element w c n
  | _ => True
  end.
(** the answer and what is left *)
Definition set w a x : world := W (upd (iters w) a x) (conts w).
Definition put w c k : world := W (iters w) (upd (conts w) c k).
Definition each w (f : iter -> iter) : world := W (fun a => option_map f (iters w a)) (conts w).
(** an iterator at one of these positions [p] of [c] becomes [y] of the node; no other is changed *)
Definition hit (c : nat) (p : node -> bool) (y : node -> iter) (x : iter) : iter :=
  match x with At e n => if ((e =? c) && p n)%bool then y n else x | _ => x end.
Definition swapped (c d e : nat) : nat := if e =? c then d else if e =? d then c else e.
Definition node_of (x : iter) : option node := match x with Gone => None | Raw n | At _ n => Some n end.
Definition effect (o : op) (w : world) (r : answer) (w' : world) : Prop :=
  match o with
  | INew a => r = RU /\ w' = set w a (Some Gone)
  | IMake a c n => r = RU /\ w' = set w a (Some (At c n))
  | ICopy a b | IAssign a b => r = RU /\ w' = set w a (iters w b)
  | IDestroy a => r = RU /\ w' = set w a None
  | IRestore a n => r = RU /\ w' = set w a (Some (Raw n))
  | IDeref a => w' = w /\ exists c n, it w a (At c n) /\ r = RNode n
  | IIncr a => r = RU /\ exists c i n m, it w a (At c n) /\ pos w c i n /\ pos w c (S i) m /\ w' = set w a (Some (At c m))
  | IDecr a => r = RU /\ exists c i n m, it w a (At c n) /\ pos w c (S i) n /\ pos w c i m /\ w' = set w a (Some (At c m))
  | IAdvance a z => r = RU /\ exists c i j n m, it w a (At c n) /\ pos w c i n /\ pos w c j m /\ Z.of_nat j = (Z.of_nat i + z)%Z /\ w' = set w a (Some (At c m))
  | IEqual a b => w' = w /\ exists x y b', it w a x /\ it w b y /\ r = RBool b' /\ (b' = true <-> node_of x = node_of y)
  | IDistance a b => w' = w /\ exists c n m i j, it w a (At c n) /\ it w b (At c m) /\ pos w c i n /\ pos w c j m /\ r = RInt (Z.of_nat j - Z.of_nat i)
  | IOwner _ _ | IRange _ _ | IOutside _ _ _ | IOutside2 _ _ _ | IBelongs _ _ => r = RU /\ w' = w
  | CNew c h => r = RU /\ w' = put w c (Some (h, []))
  | CInsert c i n => r = RU /\ exists h p q, conts w c = Some (h, p ++ q) /\ length p = Nat.min i (length (p ++ q)) /\ w' = put w c (Some (h, p ++ n :: q))
  | CExtract c n => r = RU /\ exists h p q, conts w c = Some (h, p ++ n :: q) /\ w' = put (each w (hit c (Nat.eqb n) (fun _ => Gone))) c (Some (h, p ++ q))
  | CTransfer c d i same n => r = RU /\ exists h p q h' p' q', conts w c = Some (h, p ++ n :: q) /\ conts w d = Some (h', p' ++ q') /\ length p' = Nat.min i (length (p' ++ q')) /\
      w' = put (put (each w (hit c (Nat.eqb n) (fun m => if same then At d m else Gone))) d (Some (h', p' ++ n :: q'))) c (Some (h, p ++ q))
  | CReorder c l => r = RU /\ exists h l0, conts w c = Some (h, l0) /\ w' = put w c (Some (h, l))
  | CClear c => r = RU /\ exists h l, conts w c = Some (h, l) /\ w' = put (each w (hit c (fun n => negb (n =? h)) (fun _ => Gone))) c (Some (h, []))
  | CSwap c d => r = RU /\ w' = W (fun a => option_map (fun x => match x with At e n => At (swapped c d e) n | _ => x end) (iters w a)) (fun e => conts w (swapped c d e))
  | CDestroy c => r = RU /\ w' = put (each w (hit c (fun _ => true) (fun _ => Gone))) c None
  | CErase c a b => r = RU /\ exists h p n q, it w a (At c n) /\ conts w c = Some (h, p ++ n :: q) /\
      w' = put (set (each w (hit c (Nat.eqb n) (fun _ => Gone))) b (Some (At c (hd h q)))) c (Some (h, p ++ q))
  end.

(** the pointers, seen like this *)
Definition shown (x : cell) : node * nat * bool := (inode x, icont x, iunch x).
Definition iter_of (x : node * nat * bool) : iter := let '(n, c, u) := x in if c =? 0 then if u then Raw n else Gone else At c n.
Definition view (s : sst) : world := W (fun a => option_map iter_of (option_map shown (its s a))) (fun c => option_map (fun k => (hnode k, elts k)) (cts s c)).

(** what can come out of programs; [local] tells where local iterators are put *)
Section Reach.
Variable local : list nat -> nat.
Inductive reach : sst -> Prop :=
| reach_start : reach start
| reach_ok s o r s' : reach s -> allowed o (view s) -> run local o s = Ret r s' -> reach s'
| reach_failed s o s' : reach s -> allowed o (view s) -> run local o s = Exn s' -> reach s'.
End Reach.
