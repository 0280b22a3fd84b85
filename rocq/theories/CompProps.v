(** C42, C43: composite keys, alone and in indices of containers. *)
From Coq Require Import NArith.
From Verif Require Import Prelude Layer LayerBase OrdIdx OrdSpec HashSpec HashIdx
  Stack View Container ContOk Iops History ContSpec Client ContEx ContProps Down Composite.
From Verif Require Focus OrdProps HashProps OrdLook.
Import OrdLook.
Set Implicit Arguments.

(** ** Specification *)
(** the components of the key of an element *)
Fixpoint keys {V} ts : extractors V ts -> V -> vals ts :=
  match ts with
  | [] => fun _ _ => tt
  | T :: ts => fun c v => match c with Some (h, t) => Some (h v, keys ts t v) | None => None end
  end.
(** the components number [i] of [a] and [b] exist, and [R] holds of them and the predicate number [i] *)
Fixpoint at_ (R : forall T, (T -> T -> bool) -> T -> T -> Prop) ts (i : nat) : preds ts -> vals ts -> vals ts -> Prop :=
  match ts with
  | [] => fun _ _ _ => False
  | T :: ts => fun ps a b =>
      match ps, a, b with
      | Some (p, ps), Some (x, a), Some (y, b) =>
          match i with 0 => R T p x y | S i => at_ R ts i ps a b end
      | _, _, _ => False
      end
  end.
Definition less_at := at_ (fun T lt x y => lt x y = true).
Definition equiv_at := at_ (fun T lt x y => lt x y = false /\ lt y x = false).
(** the first difference decides *)
Definition lexicographic ts (comp : preds ts) (a b : vals ts) : Prop :=
  exists i, less_at ts i comp a b /\ forall j, j < i -> equiv_at ts j comp a b.
(** all predicates satisfy [P] *)
Fixpoint every (P : forall T, (T -> T -> bool) -> Prop) ts : preds ts -> Prop :=
  match ts with
  | [] => fun _ => True
  | T :: ts => fun ps => match ps with Some (p, ps) => P T p /\ every P ts ps | None => True end
  end.
(** all hash functions are compatible with the predicates, as many as these *)
Fixpoint agree ts : preds ts -> hashes ts -> Prop :=
  match ts with
  | [] => fun _ _ => True
  | T :: ts => fun ps hs =>
      match ps, hs with
      | Some (p, ps), Some (h, hs) => (forall x y, p x y = true -> h x = h y) /\ agree ts ps hs
      | None, None => True
      | _, _ => False
      end
  end.
(** equivalence relation *)
Record equivalence {T} (p : T -> T -> bool) : Prop := mkEq {
  e_refl : forall x, p x x = true;
  e_sym : forall x y, p x y = true -> p y x = true;
  e_trans : forall x y z, p x y = true -> p y z = true -> p x z = true }.

(** ** Comparison *)
(** comparison of tuples *)
Fixpoint lexb ts : preds ts -> vals ts -> vals ts -> bool :=
  match ts with
  | [] => fun _ _ _ => false
  | T :: ts => fun ps a b =>
      match ps, a, b with
      | Some (p, ps), Some (x, a), Some (y, b) =>
          if p x y then true else if p y x then false else lexb ts ps a b
      | _, _, _ => false
      end
  end.
Fixpoint alleq ts : preds ts -> vals ts -> vals ts -> bool :=
  match ts with
  | [] => fun _ _ _ => true
  | T :: ts => fun ps a b =>
      match ps, a, b with
      | Some (p, ps), Some (x, a), Some (y, b) => if p x y then alleq ts ps a b else false
      | _, _, _ => true
      end
  end.
Ltac cases := repeat match goal with
  | p : option (_ * _) |- _ => destruct p as [(? & ?)|]
  | p : tup _ (_ :: _) |- _ => cbn [tup] in p
  | p : extractors _ (_ :: _) |- _ => unfold extractors in p
  | p : vals (_ :: _) |- _ => unfold vals in p
  | p : preds (_ :: _) |- _ => unfold preds in p
  | p : hashes (_ :: _) |- _ => unfold hashes in p
  end.
Lemma ckey_ckey V1 V2 ts (c0 : extractors V1 ts) v0 (c1 : extractors V2 ts) v1 comp :
  compare_ckey_ckey ts c0 v0 c1 v1 comp = lexb ts comp (keys ts c0 v0) (keys ts c1 v1).
Proof. induction ts as [|T ts IH]; [reflexivity|]. cases; cbn; auto. now rewrite IH. Qed.
Lemma ckey_cval V ts (c : extractors V ts) v q comp : compare_ckey_cval ts c v q comp = lexb ts comp (keys ts c v) q.
Proof. induction ts as [|T ts IH]; [reflexivity|]. cases; cbn; auto. now rewrite IH. Qed.
Lemma cval_ckey V ts (c : extractors V ts) v q comp : compare_cval_ckey ts q c v comp = lexb ts comp q (keys ts c v).
Proof. induction ts as [|T ts IH]; [reflexivity|]. cases; cbn; auto. now rewrite IH. Qed.
Lemma e_ckey_ckey V1 V2 ts (c0 : extractors V1 ts) v0 (c1 : extractors V2 ts) v1 eqs :
  equal_ckey_ckey ts c0 v0 c1 v1 eqs = alleq ts eqs (keys ts c0 v0) (keys ts c1 v1).
Proof. induction ts as [|T ts IH]; [reflexivity|]. cases; cbn; auto. rewrite IH. now destruct (b _ _). Qed.
Lemma e_ckey_cval V ts (c : extractors V ts) v q eqs : equal_ckey_cval ts c v q eqs = alleq ts eqs (keys ts c v) q.
Proof. induction ts as [|T ts IH]; [reflexivity|]. cases; cbn; auto. rewrite IH. now destruct (b _ _). Qed.
Lemma e_cval_ckey V ts (c : extractors V ts) v q eqs : equal_cval_ckey ts q c v eqs = alleq ts eqs q (keys ts c v).
Proof. induction ts as [|T ts IH]; [reflexivity|]. cases; cbn; auto. rewrite IH. now destruct (b _ _). Qed.
Lemma h_ckey V w ts (c : extractors V ts) v hs n : hash_ckey w ts c v hs n = hash_cval w ts (keys ts c v) hs n.
Proof. revert n. induction ts as [|T ts IH]; intros k; [reflexivity|]. cases; cbn; auto. Qed.
Lemma keys_len V ts (c : extractors V ts) v : len ts (keys ts c v) = len ts c.
Proof. induction ts as [|T ts IH]; [reflexivity|]. cases; cbn; auto. Qed.

Lemma lexb_spec ts (comp : preds ts) a b : every (fun T lt => forall x y, lt x y = true -> lt y x = false) ts comp ->
  (lexb ts comp a b = true <-> lexicographic ts comp a b).
Proof.
  unfold lexicographic, less_at, equiv_at. induction ts as [|T ts IH]; intros Ev.
  { cbn. split; [discriminate|]. now intros (i & [] & _). }
  destruct comp as [(p & ps)|], a as [(x & a)|], b as [(y & b)|]; cbn in *; try (split; [discriminate|]; now intros (i & [] & _)).
  destruct Ev as (As & Ev). split.
  - destruct (p x y) eqn:E.
    + intros _. exists 0. split; auto. intros j J. lia.
    + destruct (p y x) eqn:E'; [discriminate|]. intros H. apply IH in H as (i & L & Q); auto. exists (S i). split; auto.
      intros [|j] J; auto. apply Q. lia.
  - intros ([|i] & L & Q); [now rewrite L|]. destruct (Q 0 ltac:(lia)) as (-> & ->). apply IH; auto. exists i. split; auto.
    intros j J. exact (Q (S j) ltac:(lia)).
Qed.
Lemma lexb_asym ts (comp : preds ts) a b : lexb ts comp a b = true -> every (fun T lt => swo lt) ts comp -> lexb ts comp b a = false.
Proof.
  induction ts as [|T ts IH]; [auto|]. destruct comp as [(p & ps)|], a as [(x & a)|], b as [(y & b)|]; cbn; auto; try discriminate.
  intros H (W & Ev). destruct (p x y) eqn:E.
  - destruct (p y x) eqn:E'; auto. rewrite <- (w_irr W x). symmetry. now apply (w_trans W) with y.
  - destruct (p y x) eqn:E'; [discriminate|]. auto.
Qed.
Lemma lexb_weak ts (comp : preds ts) a b c : every (fun T lt => swo lt) ts comp -> lexb ts comp a b = true ->
  Nat.min (len ts a) (len ts b) <= len ts c -> lexb ts comp a c = true \/ lexb ts comp c b = true.
Proof.
  induction ts as [|T ts IH]; [discriminate|].
  destruct comp as [(p & ps)|], a as [(x & a)|], b as [(y & b)|], c as [(z & c)|]; cbn; try discriminate; [|lia]. intros (W & Ev) H L.
  destruct (p x y) eqn:E.
  - destruct (w_weak W _ _ z E) as [E'|E']; rewrite E'; auto.
  - destruct (p y x) eqn:E'; [discriminate|].
    destruct (p x z) eqn:A; auto. destruct (p z y) eqn:B; auto.
    assert (A' : p z x = false). { destruct (p z x) eqn:X; auto. destruct (w_weak W _ _ y X); congruence. }
    assert (B' : p y z = false). { destruct (p y z) eqn:X; auto. destruct (w_weak W _ _ x X); congruence. }
    rewrite A', B'. apply IH; auto. lia.
Qed.
Lemma lexb_irr ts (comp : preds ts) a : every (fun T lt => swo lt) ts comp -> lexb ts comp a a = false.
Proof. intros Ev. destruct (lexb ts comp a a) eqn:E; auto. now rewrite (lexb_asym ts comp a a E Ev) in E. Qed.
Lemma lexb_trans ts (comp : preds ts) a b c : every (fun T lt => swo lt) ts comp -> Nat.min (len ts a) (len ts b) <= len ts c ->
  lexb ts comp a b = true -> lexb ts comp b c = true -> lexb ts comp a c = true.
Proof.
  intros Ev L A B. destruct (lexb_weak ts comp a b c Ev A L) as [|C]; auto. now rewrite (lexb_asym ts comp b c B Ev) in C.
Qed.
(** neither way *)
Lemma lexb_both ts (comp : preds ts) a b : Nat.min (len ts a) (len ts b) <= len ts comp ->
  ((lexb ts comp a b = false /\ lexb ts comp b a = false) <-> forall i, i < Nat.min (len ts a) (len ts b) -> equiv_at ts i comp a b).
Proof.
  unfold equiv_at. induction ts as [|T ts IH]; [cbn; split; [lia|auto]|].
  destruct comp as [(p & ps)|], a as [(x & a)|], b as [(y & b)|]; cbn; try (split; [lia|auto]); try lia.
  intros L. split.
  - intros (A & B) i I. destruct (p x y) eqn:E; [discriminate|]. destruct (p y x) eqn:E'; [discriminate|].
    destruct i as [|i]; auto. apply (IH ps a b); auto; lia.
  - intros H. destruct (H 0 ltac:(lia)) as (-> & ->). apply IH; [lia|]. intros i I. exact (H (S i) ltac:(lia)).
Qed.

(** ** C42, the comparison itself *)
Section Less.
Variable V : Type.
Variable ts : list Type.
Variable c : extractors V ts.
Variable comp : preds ts.
Hypothesis Cs : every (fun T lt => swo lt) ts comp.

(** lexicographic, also for elements of different types and composite keys of different lengths, and for tuples *)
Lemma asyms : every (fun T lt => forall x y, lt x y = true -> lt y x = false) ts comp.
Proof.
  revert Cs. generalize comp. clear. intros comp. induction ts as [|T l IH]; [auto|]. destruct comp as [(p & ps)|]; cbn; auto. intros (W & Ev). split; auto.
  intros x y H. destruct (p y x) eqn:E; auto. rewrite <- (w_irr W x). symmetry. now apply (w_trans W) with y.
Qed.
Theorem C42_lexicographic V2 (c2 : extractors V2 ts) x y :
  compare_ckey_ckey ts c x c2 y comp = true <-> lexicographic ts comp (keys ts c x) (keys ts c2 y).
Proof. rewrite ckey_ckey. apply lexb_spec, asyms. Qed.
Theorem C42_lexicographic_tuple x q :
  (ck_less_tuple ts c comp x q = true <-> lexicographic ts comp (keys ts c x) q) /\
  (tuple_less_ck ts c comp q x = true <-> lexicographic ts comp q (keys ts c x)).
Proof. unfold ck_less_tuple, tuple_less_ck. rewrite ckey_cval, cval_ckey. split; apply lexb_spec, asyms. Qed.
Theorem C42_swo : swo (ck_less ts c comp).
Proof.
  unfold ck_less. split; intros *; rewrite !ckey_ckey.
  - now apply lexb_irr.
  - apply lexb_trans; auto. rewrite !keys_len. lia.
  - intros H. apply lexb_weak; auto. rewrite !keys_len. lia.
Qed.
(** the tuple, of whatever length, has its place in the ordering of the elements *)
Theorem C42_compatible q : OrdProps.compatible (ck_less ts c comp) (fun x => ck_less_tuple ts c comp x q) (fun x => tuple_less_ck ts c comp q x).
Proof.
  unfold ck_less, ck_less_tuple, tuple_less_ck. split; intros *; rewrite ?ckey_ckey, ?ckey_cval, ?cval_ckey.
  - intros N H. destruct (lexb_weak ts comp _ _ (keys ts c a) Cs H); [rewrite !keys_len; lia|congruence|auto].
  - intros N H. destruct (lexb_weak ts comp _ _ (keys ts c b) Cs H); [rewrite !keys_len; lia|auto|congruence].
  - intros H. now apply lexb_asym.
Qed.
(** [x] has the components of [q], as far as there are both *)
Definition has_prefix (q : vals ts) (x : V) : Prop :=
  forall i, i < Nat.min (len ts c) (len ts q) -> equiv_at ts i comp (keys ts c x) q.
Lemma prefix_neither q x : Nat.min (len ts c) (len ts q) <= len ts comp ->
  (ck_less_tuple ts c comp x q = false /\ tuple_less_ck ts c comp q x = false <-> has_prefix q x).
Proof.
  intros L. unfold ck_less_tuple, tuple_less_ck. rewrite ckey_cval, cval_ckey.
  rewrite lexb_both; rewrite keys_len; auto. reflexivity.
Qed.
End Less.

(** ** C43, equality and hashing *)
Definition same_at := at_ (fun T p x y => p x y = true).
Lemma alleq_spec ts (eqs : preds ts) a b : Nat.min (len ts a) (len ts b) <= len ts eqs ->
  (alleq ts eqs a b = true <-> forall i, i < Nat.min (len ts a) (len ts b) -> same_at ts i eqs a b).
Proof.
  unfold same_at. induction ts as [|T ts IH]; [cbn; split; [lia|auto]|].
  destruct eqs as [(p & ps)|], a as [(x & a)|], b as [(y & b)|]; cbn; try (split; [lia|auto]); try lia.
  intros L. split.
  - destruct (p x y) eqn:E; [|discriminate]. intros H [|i] I; auto. apply (IH ps a b); auto; lia.
  - intros H. rewrite (H 0 ltac:(lia)). apply IH; [lia|]. intros i I. exact (H (S i) ltac:(lia)).
Qed.
Lemma alleq_refl ts (eqs : preds ts) a : every (fun T p => equivalence p) ts eqs -> alleq ts eqs a a = true.
Proof.
  induction ts as [|T ts IH]; [auto|]. destruct eqs as [(p & ps)|], a as [(x & a)|]; cbn; auto.
  intros (E & Ev). rewrite (e_refl E). auto.
Qed.
Lemma alleq_sym ts (eqs : preds ts) a b : every (fun T p => equivalence p) ts eqs -> alleq ts eqs a b = true -> alleq ts eqs b a = true.
Proof.
  induction ts as [|T ts IH]; [auto|]. destruct eqs as [(p & ps)|], a as [(x & a)|], b as [(y & b)|]; cbn; auto.
  intros (E & Ev). destruct (p x y) eqn:X; [|discriminate]. rewrite (e_sym E _ _ X). auto.
Qed.
Lemma alleq_trans ts (eqs : preds ts) a b d : every (fun T p => equivalence p) ts eqs -> Nat.min (len ts a) (len ts d) <= len ts b ->
  alleq ts eqs a b = true -> alleq ts eqs b d = true -> alleq ts eqs a d = true.
Proof.
  induction ts as [|T ts IH]; [auto|].
  destruct eqs as [(p & ps)|], a as [(x & a)|], b as [(y & b)|], d as [(z & d)|]; cbn; auto; try lia. intros (E & Ev) L.
  destruct (p x y) eqn:X; [|discriminate]. destruct (p y z) eqn:Y; [|discriminate].
  rewrite (e_trans E _ _ _ X Y). apply IH; auto; lia.
Qed.
Lemma hash_eq w ts (eqs : preds ts) (hs : hashes ts) a b n : agree ts eqs hs -> len ts a = len ts b -> alleq ts eqs a b = true ->
  hash_cval w ts a hs n = hash_cval w ts b hs n.
Proof.
  revert n. induction ts as [|T ts IH]; [auto|].
  destruct eqs as [(p & ps)|], hs as [(h & hs)|], a as [(x & a)|], b as [(y & b)|]; cbn; intros k; auto; try easy.
  intros (H & Ag) L. destruct (p x y) eqn:X; [|discriminate]. rewrite (H _ _ X). intros Y. eapply IH; eauto; lia.
Qed.

Section Equal.
Variable V : Type.
Variable ts : list Type.
Variable c : extractors V ts.
Variable eqs : preds ts.
Variable hs : hashes ts.
Variable w : N.

(** what the code asserts: composite_key_equal_to, 971-975 *)
Theorem C43_equal V2 (c2 : extractors V2 ts) x y : len ts c <= len ts eqs -> len ts c = len ts c2 ->
  (equal_ckey_ckey ts c x c2 y eqs = true <-> forall i, i < len ts c -> same_at ts i eqs (keys ts c x) (keys ts c2 y)).
Proof.
  intros L L2. rewrite e_ckey_ckey, alleq_spec; rewrite !keys_len, <- L2, Nat.min_id; auto. reflexivity.
Qed.
Theorem C43_equal_tuple x q : len ts c <= len ts eqs -> len ts c = len ts q ->
  (ck_equal_tuple ts c eqs x q = true <-> forall i, i < len ts c -> same_at ts i eqs (keys ts c x) q) /\
  (tuple_equal_ck ts c eqs q x = true <-> forall i, i < len ts c -> same_at ts i eqs q (keys ts c x)).
Proof.
  intros L L2. unfold ck_equal_tuple, tuple_equal_ck. rewrite e_ckey_cval, e_cval_ckey.
  split; rewrite alleq_spec; rewrite !keys_len, <- L2, Nat.min_id; auto; reflexivity.
Qed.

Hypothesis Es : every (fun T p => equivalence p) ts eqs.
Theorem C43_equivalence : equivalence (ck_equal ts c eqs).
Proof.
  unfold ck_equal. split; intros *; rewrite !e_ckey_ckey.
  - now apply alleq_refl.
  - now apply alleq_sym.
  - apply alleq_trans; auto. rewrite !keys_len. lia.
Qed.
Hypothesis Hs : agree ts eqs hs.
(** also for composite keys on other types with as many components, and whatever is carried at the beginning *)
Theorem C43_hash V2 (c2 : extractors V2 ts) x y n : len ts c = len ts c2 -> equal_ckey_ckey ts c x c2 y eqs = true ->
  hash_ckey w ts c x hs n = hash_ckey w ts c2 y hs n.
Proof.
  intros L. rewrite e_ckey_ckey, !h_ckey. intros H. eapply hash_eq; eauto. now rewrite !keys_len.
Qed.
Theorem C43_hash_tuple x q : len ts c = len ts q -> ck_equal_tuple ts c eqs x q = true \/ tuple_equal_ck ts c eqs q x = true ->
  ck_hash ts c w hs x = tuple_hash ts w hs q.
Proof.
  intros L. unfold ck_equal_tuple, tuple_equal_ck, ck_hash, tuple_hash. rewrite e_ckey_cval, e_cval_ckey, h_ckey.
  intros [H|H]; [|symmetry]; eapply hash_eq; eauto; now rewrite keys_len.
Qed.
(** so that the functors are what a hashed index asks for *)
Theorem C43_heq : heq_ok (ck_equal ts c eqs) (fun x => N.to_nat (ck_hash ts c w hs x)).
Proof.
  assert (E := C43_equivalence). split; [apply E|apply E|apply E|].
  intros x y H. f_equal. now apply (C43_hash c).
Qed.
Theorem C43_compatible q : len ts c = len ts q ->
  HashProps.compatible (ck_equal ts c eqs) (fun x => N.to_nat (ck_hash ts c w hs x))
    (fun x => tuple_equal_ck ts c eqs q x) (N.to_nat (tuple_hash ts w hs q)).
Proof.
  intros L. unfold HashProps.compatible, ck_equal, tuple_equal_ck. split; intros k.
  - intros k'. rewrite e_ckey_ckey, !e_cval_ckey. intros H. apply Bool.eq_iff_eq_true. split; intros H'.
    + apply alleq_trans with q; auto; [rewrite !keys_len; lia|]. now apply alleq_sym.
    + apply alleq_trans with (keys ts c k); auto. rewrite !keys_len. lia.
  - intros H. f_equal. apply C43_hash_tuple; auto.
Qed.
End Equal.
Lemma combine_word w carry h : (0 < w -> carry < 2 ^ w -> combine w carry h < 2 ^ w)%N.
Proof.
  intros W C. unfold combine. set (m := (2 ^ w)%N) in *. assert (M : (0 < m)%N) by (unfold m; apply N.neq_0_lt_0, N.pow_nonzero; lia).
  set (y := (_ mod m)%N). assert (Y : (y < m)%N) by (apply N.mod_lt; lia). clearbody y. unfold m in *.
  destruct (N.eq_dec (N.lxor carry y) 0) as [->|Nz]; [auto|]. apply N.log2_lt_pow2; [lia|].
  eapply N.le_lt_trans; [apply N.log2_lxor|]. apply N.max_lub_lt.
  - destruct (N.eq_dec carry 0) as [->|]; [cbn; lia|]. apply N.log2_lt_pow2; lia.
  - destruct (N.eq_dec y 0) as [->|]; [cbn; lia|]. apply N.log2_lt_pow2; lia.
Qed.
(** the result is a std::size_t *)
Theorem C43_word V w ts (c : extractors V ts) x hs n : (0 < w)%N -> (n < 2 ^ w)%N -> (hash_ckey w ts c x hs n < 2 ^ w)%N.
Proof.
  intros W. rewrite h_ckey. generalize (keys ts c x). intros q. clear c x. revert n. induction ts as [|T ts IH]; [auto|].
  destruct hs as [(h & hs)|], q as [(y & q)|]; cbn; auto. intros n H. apply IH; auto. now apply combine_word.
Qed.

(** ** In an ordered index of a container *)
Section Ordered.
Variable V : Type.
Variable throws : nat -> bool.
Variable pick : list node -> node.
Variable dv : V.
Variable hd : node.
Variables cs1 cs2 : list (code V).
Variable ts : list Type.
Variable c : extractors V ts.
Variable comp : preds ts.
Variables uniq rk : bool.
Variable junk : OrdModel.cell.
Notation less := (ck_less ts c comp).
Notation by_value := (fun v : V => v).
Notation all := (OrdProps.all cs1 cs2 by_value less uniq rk junk).
Notation value_of := (@value_of V throws pick dv hd all).
Notation sup := (stack throws pick hd (mem_world V) cs2).
Hypothesis St_ : setting pick hd all.
(** every comparison is a strict weak ordering, and there are enough of them: composite_key_compare, 1163-1167 *)
Hypothesis Cs : every (fun T lt => swo lt) ts comp.

(** equal_range with the first components of a key delimits the elements which have them *)
Theorem C42_equal_range s lk nh l q : reachable throws pick hd all s lk nh -> OrdProps.holds throws pick hd cs1 cs2 by_value less uniq rk junk s l ->
  Nat.min (len ts c) (len ts q) <= len ts comp ->
  OrdProps.answers throws pick hd cs1 cs2 by_value less uniq rk junk s
    (OrdIdx.equal_range throws by_value hd sup (fun x => ck_less_tuple ts c comp x q) (fun x => tuple_less_ck ts c comp q x))
    (fun r => exists l1 m l2, l = l1 ++ m ++ l2 /\ r = (List.hd hd (m ++ l2), List.hd hd l2) /\
       forall x, In x l -> (In x m <-> has_prefix ts c comp q (value_of s x))).
Proof.
  intros R H L. assert (Co := @C42_compatible V ts c comp Cs q).
  assert (A := @OrdProps.C14_equal_range V throws pick dv hd cs1 cs2 V by_value less uniq rk junk St_ s lk nh l _ _ R H Co).
  assert (Sr := @OrdProps.C10_sorted V throws pick dv hd cs1 cs2 V by_value less uniq rk junk St_ s lk nh l R H).
  apply proj2, proj2, proj1 in Sr.
  assert (Mo : forall p : V -> bool, (forall a b, less b a = false -> p a = true -> p b = true) -> mono (fun x => p (value_of s x)) l).
  { intros p Hp. clear - Sr Hp. unfold mono. induction Sr as [|x l' S1 IH F]; constructor; auto.
    eapply Forall_impl; [|exact F]. intros y Hy. cbv beta in Hy. now apply Hp. }
  set (low := fun x => ck_less_tuple ts c comp x q) in *. set (high := fun x => tuple_less_ck ts c comp q x) in *.
  destruct (mono_split (Mo (fun x => negb (low x)) (fun a b => @OrdProps.low_mono _ _ _ _ a b Co))) as (l1 & l' & E1 & F1 & F2).
  assert (M3 := Mo high (OrdProps.c_high Co)). rewrite E1 in M3. apply sorted_app in M3 as (_ & M3 & _).
  destruct (mono_split M3) as (m & l2 & E2 & F3 & F4). rewrite Forall_forall in *. subst l'.
  assert (L1 : forall x, In x l1 -> low (value_of s x) = true) by (intros x I; now apply Bool.negb_false_iff, F1).
  assert (L2 : forall x, In x (m ++ l2) -> low (value_of s x) = false) by (intros x I; now apply Bool.negb_true_iff, F2).
  unfold OrdProps.answers in *. destruct (OrdIdx.equal_range _ _ _ _ _ _ _); auto. destruct A as (-> & A). split; auto.
  exists l1, m, l2. splits; auto.
  - f_equal; rewrite E1; [|rewrite app_assoc]; apply OrdProps.first_at.
    + intros x I. apply Bool.negb_false_iff. auto.
    + intros x I. apply Bool.negb_true_iff. auto.
    + intros x I. apply in_app_or in I as [I|I]; auto. apply (OrdProps.c_one Co). now apply L1.
    + auto.
  - intros x I. rewrite <- (@prefix_neither V ts c comp q (value_of s x) L). fold (low (value_of s x)) (high (value_of s x)). split.
    + intros J. split; [apply L2, in_or_app; auto|auto].
    + intros (J1 & J2). rewrite E1 in I. apply in_app_or in I as [I|I]; [rewrite L1 in J1 by auto; discriminate|].
      apply in_app_or in I as [I|I]; auto. rewrite F4 in J2 by auto. discriminate.
Qed.
(** find gives the first of them, count how many they are *)
Theorem C42_find s lk nh l q : reachable throws pick hd all s lk nh -> OrdProps.holds throws pick hd cs1 cs2 by_value less uniq rk junk s l ->
  Nat.min (len ts c) (len ts q) <= len ts comp ->
  OrdProps.answers throws pick hd cs1 cs2 by_value less uniq rk junk s
    (OrdIdx.find throws by_value hd sup (fun x => ck_less_tuple ts c comp x q) (fun x => tuple_less_ck ts c comp q x))
    (fun r => (r = hd /\ forall x, In x l -> ~ has_prefix ts c comp q (value_of s x)) \/
       exists l1 l2, l = l1 ++ r :: l2 /\ has_prefix ts c comp q (value_of s r) /\ forall x, In x l1 -> ~ has_prefix ts c comp q (value_of s x)).
Proof.
  intros R H L. assert (Co := @C42_compatible V ts c comp Cs q).
  assert (A := @OrdProps.C14_find V throws pick dv hd cs1 cs2 V by_value less uniq rk junk St_ s lk nh l _ _ R H Co).
  unfold OrdProps.answers in *. destruct (OrdIdx.find _ _ _ _ _ _ _); auto. destruct A as (-> & A). split; auto. clear - L.
  assert (E : forall x, ((negb (ck_less_tuple ts c comp (value_of s x) q) && negb (tuple_less_ck ts c comp q (value_of s x)))%bool = true <-> has_prefix ts c comp q (value_of s x))).
  { intros x. rewrite <- prefix_neither by auto. now rewrite Bool.andb_true_iff, !Bool.negb_true_iff. }
  induction l as [|y l IH]; [left; split; [auto|easy]|]. unfold first in *. cbn [List.find].
  destruct (_ && _)%bool eqn:B.
  - right. exists [], l. split; [reflexivity|]. split; [now apply E|easy].
  - assert (N : ~ has_prefix ts c comp q (value_of s y)) by (rewrite <- E; now rewrite B).
    destruct IH as [(E1 & F)|(l1 & l2 & E1 & P & F)].
    + left. split; auto. intros x [<-|I]; auto.
    + right. exists (y :: l1), l2. split; [cbn; congruence|]. split; auto. intros x [<-|I]; auto.
Qed.
End Ordered.

(** ** In a hashed index of a container *)
Section Hashed.
Variable V : Type.
Variable throws : nat -> bool.
Variable pick : list node -> node.
Variable dv : V.
Variable hd : node.
Variables cs1 cs2 : list (code V).
Variable ts : list Type.
Variable c : extractors V ts.
Variable eqs : preds ts.
Variable hs : hashes ts.
Variable w : N.
Variable uniq : bool.
Variable jh : HashModel.bptr * HashModel.bptr.
Variable n0 : nat.
Variable pl : policy.
Notation eq := (ck_equal ts c eqs).
Notation hash := (fun x => N.to_nat (ck_hash ts c w hs x)).
Notation by_value := (fun v : V => v).
Notation this := (Hashed by_value eq hash uniq jh n0 pl).
Notation all := (Focus.all cs1 cs2 this).
Notation value_of := (@value_of V throws pick dv hd all).
Notation sup := (stack throws pick hd (mem_world V) cs2).
Hypothesis St_ : setting pick hd all.
Hypothesis Es : every (fun T p => equivalence p) ts eqs.
Hypothesis Hs : agree ts eqs hs.
Hypothesis Enough : len ts c <= len ts eqs.

(** find with a tuple of as many components finds an element with these components, if there is any *)
Theorem C43_find s lk nh l q : reachable throws pick hd all s lk nh -> Focus.holds throws pick hd cs1 cs2 this s l -> len ts c = len ts q ->
  HashProps.answers throws pick hd cs1 cs2 by_value eq hash uniq jh n0 pl s
    (HashIdx.find throws by_value uniq hd sup (N.to_nat (tuple_hash ts w hs q)) (fun x => tuple_equal_ck ts c eqs q x))
    (fun r => let same x := forall i, i < len ts c -> same_at ts i eqs q (keys ts c (value_of s x)) in
       (r = hd /\ forall x, In x l -> ~ same x) \/ (In r l /\ same r)).
Proof.
  intros R H L. assert (Co := @C43_compatible V ts c eqs hs w Es Hs q L).
  assert (A := @HashProps.C23_find V throws pick dv hd cs1 cs2 V by_value eq hash uniq jh n0 pl St_ s lk nh l _ _ R H Co).
  unfold HashProps.answers in *. destruct (HashIdx.find _ _ _ _ _ _ _ _); auto. destruct A as (-> & A). split; auto.
  assert (E : forall x, tuple_equal_ck ts c eqs q (value_of s x) = true <-> forall i, i < len ts c -> same_at ts i eqs q (keys ts c (value_of s x))).
  { intros x. now apply C43_equal_tuple. }
  unfold HashProps.matching. set (p := fun x => tuple_equal_ck ts c eqs q (value_of s x)).
  destruct (filter p l) as [|y m] eqn:F; cbn [List.hd].
  - left. split; auto. intros x I Sx. assert (In x (filter p l)) by (apply filter_In; split; auto; now apply E). now rewrite F in *.
  - right. assert (I : In y (filter p l)) by (rewrite F; now left). apply filter_In in I as (I & P). split; auto. now apply E.
Qed.
End Hashed.

(** ** A composite key of three components of different types: last digit, whether above 50, and tens downwards *)
Definition three_types : list Type := [nat : Type; bool : Type; nat : Type].
Definition three_keys : extractors nat three_types := Some (fun v => v mod 10, Some (fun v => 50 <? v, Some (fun v => v / 10, tt))).
Definition three_less : preds three_types :=
  Some (Nat.ltb, Some (fun a b => andb (negb a) b, Some (fun a b => b <? a, tt))).
Definition three_equal : preds three_types := Some (Nat.eqb, Some (Bool.eqb, Some (Nat.eqb, tt))).
Definition three_hash : hashes three_types := Some (N.of_nat, Some (fun b : bool => if b then 7 else 3, Some (fun n => 5 * N.of_nat n, tt)))%N.
Definition in_three (n : nat) : vals three_types :=
  match n with 0 => None | 1 => Some (4, None) | 2 => Some (4, Some (true, None)) | _ => Some (4, Some (true, Some (7, tt))) end.
Example three_hyp : every (fun T lt => swo lt) three_types three_less /\ every (fun T p => equivalence p) three_types three_equal /\
  agree three_types three_equal three_hash /\ len three_types three_keys = 3 /\ len three_types three_less = 3 /\ len three_types three_equal = 3 /\
  len three_types (in_three 2) = 2 /\ len three_types (in_three 3) = 3.
Proof.
  splits; auto.
  - cbn [every three_types three_less]. splits; auto; [apply nat_swo|split; intros []; try intros []; try intros []; cbn; auto|].
    split; intros *; rewrite ?Nat.ltb_irrefl, ?Nat.ltb_lt, ?Nat.ltb_ge; lia.
  - cbn. splits; auto; split; intros *; rewrite ?Nat.eqb_eq, ?Bool.eqb_true_iff; congruence.
  - cbn. split; [|split; [|split; auto]]; intros x y E; first [apply Nat.eqb_eq in E; now subst|apply Bool.eqb_prop in E; now subst].
Qed.
Definition by_three : code nat := Ordered (fun v : nat => v) (ck_less three_types three_keys three_less) false false junk0.
Definition hash_three : code nat :=
  Hashed (fun v : nat => v) (ck_equal three_types three_keys three_equal) (fun x => N.to_nat (ck_hash three_types three_keys 16 three_hash x)) true jh0 0 pol1.
Definition composed : list (code nat) := [by_three; hash_three].
Lemma composed_ok : setting next_node 1 composed.
Proof.
  destruct three_hyp as (A & B & C & _). split; [apply next_node_ok| |easy|easy].
  constructor; [exact (@C42_swo _ three_types three_keys three_less A)|]. constructor; [exact (@C43_heq _ three_types three_keys three_equal three_hash 16%N B C)|constructor].
Qed.
Notation never := (fun _ : nat => false).
Definition composed_ops : list (op nat (nat * iop nat)) := map (fun v => Insert _ v None) [34; 84; 75; 14; 54; 95; 74; 3; 74].
Definition composed_state : St (box never next_node 1 composed) := fst (play never next_node 1 composed composed_ops (start never next_node 1 composed 0) [] []).
(** 3, 34, 14, 84, 74, 54, 95, 75 *)
Example composed_hyp : reachable never next_node 1 composed composed_state [9; 8; 7; 6; 5; 4; 3; 2] [] /\
  OrdProps.holds never next_node 1 [] [hash_three] (fun v => v) (ck_less three_types three_keys three_less) false false junk0 composed_state [9; 2; 5; 3; 8; 6; 7; 4].
Proof.
  split.
  - assert (P : playable never next_node 1 composed composed_ops (start never next_node 1 composed 0) [] []).
    { vm_compute. repeat split; auto. }
    apply play_reach in P; [|apply start_reach].
    assert (Q : snd (play never next_node 1 composed composed_ops (start never next_node 1 composed 0) [] []) = ([9; 8; 7; 6; 5; 4; 3; 2], [])).
    { vm_compute. reflexivity. }
    rewrite Q in P. exact P.
  - eexists. split; [vm_compute; reflexivity|reflexivity].
Qed.
Notation sup3 := (stack never next_node 1 (mem_world nat) [hash_three]).
Notation composed_at := (@down nat never next_node 1 (mem_world nat) composed [] composed_state).
Definition range_three (n : nat) := HashProps.value_got
  (OrdIdx.equal_range never (fun v : nat => v) 1 sup3
    (fun x => ck_less_tuple three_types three_keys three_less x (in_three n)) (fun x => tuple_less_ck three_types three_keys three_less (in_three n) x) composed_at).
Example composed_ranges : map range_three [0; 1; 2; 3] = [Some (9, 1); Some (2, 7); Some (3, 7); Some (8, 6)].
Proof. vm_compute. reflexivity. Qed.

Print Assumptions C42_lexicographic.
Print Assumptions C42_lexicographic_tuple.
Print Assumptions C42_swo.
Print Assumptions C42_compatible.
Print Assumptions C42_equal_range.
Print Assumptions C42_find.
Print Assumptions C43_equal.
Print Assumptions C43_equal_tuple.
Print Assumptions C43_equivalence.
Print Assumptions C43_hash.
Print Assumptions C43_hash_tuple.
Print Assumptions C43_heq.
Print Assumptions C43_compatible.
Print Assumptions C43_word.
Print Assumptions C43_find.
