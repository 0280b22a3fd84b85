(** C45: the elements of an index which are in order with respect to a base sequence.
    Source: /repo/include/boost/multi_index/detail/index_matcher.hpp *)
From Verif Require Import Prelude.
Set Implicit Arguments.

(** ** What is used of the standard library *)
(** std::sort by a key, for keys without repetitions, when there is only one result *)
Fixpoint place {A} (key : A -> nat) (x : A) (l : list A) : list A :=
  match l with
  | [] => [x]
  | y :: l => if key x <? key y then x :: y :: l else y :: place key x l
  end.
Definition sort_by {A} (key : A -> nat) (l : list A) : list A := fold_right (place key) [] l.
(** std::lower_bound in a range of [n] elements, [less i]: the element number [i] is less than the value looked
    for.  Asked of the range is that it is partitioned, otherwise behaviour is undefined. *)
Definition partitioned (less : nat -> bool) (n : nat) : bool :=
  forallb (fun i => implb (less (S i)) (less i)) (seq 0 (n - 1)).
Definition lower_bound {S} (n : nat) (less : nat -> bool) : M S nat :=
  if partitioned less n then ret (length (filter less (seq 0 n))) else ub.

(** ** Model *)
(** algorithm_base, 104-197: the array of entries, an entry being known by its number; [ents]: node and pos;
    [prv]: previous, [ordd]: ordered, [ptop]: pile_top, [pent]: pile_top_entry; [srt]: sorted; [np]: num_piles.
    The constructor of entry (69) leaves previous, ordered, pile_top and pile_top_entry as they are, which is why
    they are arbitrary in the beginning.  (Formally such objects may not even be copied, as add, std::sort and the
    last step of finish_algorithm do.) *)
Record mst := mkM { ents : list (node * nat); prv : nat -> nat; ordd : nat -> bool; ptop : nat -> nat; pent : nat -> nat;
  srt : bool; np : nat }.
Definition MM := M mst.
Definition node_at (s : mst) (i : nat) : node := fst (nth i (ents s) (0, 0)).
Definition pos_at (s : mst) (i : nat) : nat := snd (nth i (ents s) (0, 0)).
Definition size_of (s : mst) : nat := length (ents s).
Definition get : MM mst := fun s => Ret s s.
Definition put (s : mst) : MM unit := fun _ => Ret tt s.
(** an entry is dereferenced *)
Definition within (i : nat) : MM unit := fun s => if i <? size_of s then Ret tt s else UB.
Definition set_ord (i : nat) (b : bool) : MM unit := within i ;;; s <- get ;; put (mkM (ents s) (prv s) (upd (ordd s) i b) (ptop s) (pent s) (srt s) (np s)).
Definition set_prv (i e : nat) : MM unit := within i ;;; s <- get ;; put (mkM (ents s) (upd (prv s) i e) (ordd s) (ptop s) (pent s) (srt s) (np s)).
Definition set_pile (p n e : nat) : MM unit :=
  within p ;;; s <- get ;; put (mkM (ents s) (prv s) (ordd s) (upd (ptop s) p n) (upd (pent s) p e) (srt s) (np s)).
Definition set_np (n : nat) : MM unit := s <- get ;; put (mkM (ents s) (prv s) (ordd s) (ptop s) (pent s) (srt s) n).

(** the constructor and add(node) for every node of the base sequence, 108-118 *)
Definition added (base : list node) (prv : nat -> nat) (ordd : nat -> bool) (ptop pent : nat -> nat) (np : nat) : mst :=
  mkM (combine base (seq 0 (length base))) prv ordd ptop pent false np.
(** begin_algorithm, 120-127 *)
Definition begin_algorithm : MM unit :=
  s <- get ;;
  (if srt s then ret tt else put (mkM (sort_by fst (ents s)) (prv s) (ordd s) (ptop s) (pent s) true (np s))) ;;;
  set_np 0.
(** std::lower_bound(entries(),entries()+size_,entry(node),entry::less_by_node()), 131-134, 179-181 *)
Definition localize (x : node) : MM nat := s <- get ;; lower_bound (size_of s) (fun i => node_at s i <? x).
(** add_node_to_algorithm, 129-158 *)
Definition add_node (x : node) : MM unit :=
  ent <- localize x ;;
  set_ord ent false ;;;
  s <- get ;;
  let n := pos_at s ent in
  pile <- lower_bound (np s) (fun i => ptop s i <? n) ;;
  set_pile pile n ent ;;;
  (if 0 <? pile then within (pile - 1) ;;; s <- get ;; set_prv ent (pent s (pile - 1)) else ret tt) ;;;
  if pile =? np s then set_np (S (np s)) else ret tt.
(** finish_algorithm, 160-174 *)
Fixpoint mark (n ent : nat) : MM unit :=
  match n with
  | O => ret tt
  | S n => set_ord ent true ;;; s <- get ;; mark n (prv s ent)
  end.
Definition finish_algorithm : MM unit :=
  s <- get ;;
  if 0 <? np s then within (np s - 1) ;;; mark (np s) (pent s (np s - 1)) else ret tt.
(** algorithm::execute, 220-230 *)
Fixpoint add_nodes (xs : list node) : MM unit :=
  match xs with [] => ret tt | x :: xs => add_node x ;;; add_nodes xs end.
Definition execute (xs : list node) : MM unit := begin_algorithm ;;; add_nodes xs ;;; finish_algorithm.
(** is_ordered, 176-182 *)
Definition is_ordered (x : node) : MM bool := i <- localize x ;; within i ;;; s <- get ;; ret (ordd s i).

(** ** Specification *)
Inductive subseq {A} : list A -> list A -> Prop :=
| sub_nil l : subseq [] l
| sub_skip x l l' : subseq l l' -> subseq l (x :: l')
| sub_take x l l' : subseq l l' -> subseq (x :: l) (x :: l').

(** ** Sequences *)
Lemma subseq_refl {A} (l : list A) : subseq l l.
Proof. induction l; [apply sub_nil|now apply sub_take]. Qed.
Lemma subseq_in {A} (l l' : list A) x : subseq l l' -> In x l -> In x l'.
Proof. induction 1; cbn; [tauto|auto|]. intros [<-|H']; auto. Qed.
Lemma subseq_app_l {A} (l l1 l2 : list A) : subseq l l1 -> subseq l (l1 ++ l2).
Proof. induction 1; cbn; [apply sub_nil|now apply sub_skip|now apply sub_take]. Qed.
Lemma subseq_app {A} (l l' l1 l1' : list A) : subseq l l' -> subseq l1 l1' -> subseq (l ++ l1) (l' ++ l1').
Proof. induction 1 as [l'|x l l' H IH|x l l' H IH]; intros H1; cbn; [|apply sub_skip; auto|apply sub_take; auto].
  induction l' as [|y l' IH]; cbn; auto. now apply sub_skip.
Qed.
Lemma subseq_snoc_inv {A} (l l' : list A) x : subseq l (l' ++ [x]) -> subseq l l' \/ exists m, l = m ++ [x] /\ subseq m l'.
Proof.
  revert l. induction l' as [|y l' IH]; cbn; intros l H.
  - inversion H as [|? ? ? H'|? ? ? H']; subst; [left; constructor| |].
    + inversion H'; subst. left; constructor.
    + inversion H'; subst. right. exists []. split; [reflexivity|constructor].
  - inversion H as [|? ? ? H'|? m ? H']; subst; [left; constructor| |].
    + apply IH in H' as [H'|(m & -> & H')]; [left; now apply sub_skip|right]. exists m. split; auto. now apply sub_skip.
    + apply IH in H' as [H'|(m' & -> & H')]; [left; now apply sub_take|right]. exists (y :: m'). split; auto. now apply sub_take.
Qed.
Lemma filter_subseq {A} (p : A -> bool) l : subseq (filter p l) l.
Proof. induction l as [|x l IH]; cbn; [constructor|]. destruct (p x); [now apply sub_take|now apply sub_skip]. Qed.
Lemma subseq_nodup {A} (l l' : list A) : subseq l l' -> NoDup l' -> NoDup l.
Proof.
  induction 1 as [l'|x l l' H IH|x l l' H IH]; intros N; [constructor| |]; apply NoDup_cons_iff in N as (N1 & N2); auto.
  constructor; auto. intros I. apply N1. eapply subseq_in; eauto.
Qed.
Lemma filter_all {A} (p : A -> bool) l : (forall x, In x l -> p x = true) -> filter p l = l.
Proof. induction l as [|x l IH]; intros H; cbn; auto. rewrite (H x) by (now left). f_equal. apply IH. intros y I. apply H. now right. Qed.
Lemma filter_none {A} (p : A -> bool) l : (forall x, In x l -> p x = false) -> filter p l = [].
Proof. induction l as [|x l IH]; intros H; cbn; auto. rewrite (H x) by (now left). apply IH. intros y I. apply H. now right. Qed.
(** the elements of a subsequence, picked from the whole *)
Lemma subseq_filter (l l' : list node) (p : node -> bool) : subseq l l' -> NoDup l' -> (forall x, In x l' -> (p x = true <-> In x l)) -> filter p l' = l.
Proof.
  intros H. revert p. induction H as [l'|x l l' H IH|x l l' H IH]; intros p N Hp.
  - apply filter_none. intros x I. destruct (p x) eqn:E; auto. now apply Hp in E.
  - apply NoDup_cons_iff in N as (N1 & N2). cbn. destruct (p x) eqn:E.
    + apply Hp in E; [|now left]. elim N1. eapply subseq_in; eauto.
    + apply IH; auto. intros y I. apply Hp. now right.
  - apply NoDup_cons_iff in N as (N1 & N2). cbn. rewrite (proj2 (Hp x (or_introl eq_refl)) (or_introl eq_refl)). f_equal.
    apply IH; auto. intros y I. rewrite Hp by (now right). cbn. split; [intros [<-|]; auto; now elim N1|auto].
Qed.

Fixpoint index_of (x : node) (l : list node) : nat :=
  match l with [] => 0 | y :: l => if x =? y then 0 else S (index_of x l) end.
Lemma index_nth x l : In x l -> nth_error l (index_of x l) = Some x.
Proof. induction l as [|y l IH]; cbn; [easy|]. destruct (Nat.eqb_spec x y) as [->|N]; [reflexivity|]. intros [<-|I]; [easy|]. now apply IH. Qed.
Lemma index_inj x y l : In x l -> In y l -> index_of x l = index_of y l -> x = y.
Proof. intros I J E. apply index_nth in I, J. rewrite E in I. congruence. Qed.
Lemma nth_index i x l : NoDup l -> nth_error l i = Some x -> index_of x l = i.
Proof.
  revert i. induction l as [|y l IH]; intros [|i] N E; cbn in *; try discriminate.
  - injection E as ->. now rewrite Nat.eqb_refl.
  - apply NoDup_cons_iff in N as (N1 & N2). destruct (Nat.eqb_spec x y) as [->|]; [apply nth_error_In in E; easy|]. f_equal. auto.
Qed.
Definition inc (base l : list node) : Prop := StronglySorted (fun x y => index_of x base < index_of y base) l.
Lemma inc_subseq base l : NoDup base -> incl l base -> inc base l -> subseq l base.
Proof.
  revert l. induction base as [|b base IH]; intros l N I Sr.
  - destruct l as [|x l]; [constructor|]. elim (I x (or_introl eq_refl)).
  - apply NoDup_cons_iff in N as (N1 & N2). destruct l as [|x l]; [constructor|]. inversion Sr as [|? ? S1 F]; subst.
    assert (Tl : forall y, In y l -> y <> b /\ In y base).
    { intros y J. rewrite Forall_forall in F. specialize (F y J). cbn in F. destruct (Nat.eqb_spec y b) as [E|Ne]; [destruct (x =? b) in F; lia|].
      split; auto. destruct (I y (or_intror J)); [congruence|auto]. }
    assert (Ic : forall m, (forall y, In y m -> y <> b) -> inc (b :: base) m -> inc base m).
    { intros m Hm Hs. induction Hs as [|y m S2 IH2 G]; constructor; [apply IH2; intros z J; apply Hm; now right|].
      rewrite Forall_forall in *. intros z J. specialize (G z J). cbn in G.
      destruct (Nat.eqb_spec y b) as [E|]; [elim (Hm y (or_introl eq_refl) E)|].
      destruct (Nat.eqb_spec z b) as [E|]; [elim (Hm z (or_intror J) E)|]. lia. }
    destruct (Nat.eq_dec x b) as [->|Ne].
    + apply sub_take. apply IH; auto; [intros y J; now apply Tl|]. apply Ic; auto. intros y J. now apply Tl.
    + apply sub_skip. apply IH; auto.
      * intros y [<-|J]; [destruct (I x (or_introl eq_refl)); [congruence|auto]|now apply Tl].
      * apply Ic; auto. intros y [<-|J]; auto. now apply Tl.
Qed.
Lemma subseq_inc base l : NoDup base -> subseq l base -> inc base l.
Proof.
  intros N H. assert (Ge : forall pre base' l, subseq l base' -> pre ++ base' = base -> inc base l); [|now apply (Ge [] base l)].
  clear l H. intros pre base' l H. revert pre. induction H as [l'|x l l' H IH|x l l' H IH]; intros pre E; [constructor| |].
  - apply (IH (pre ++ [x])). now rewrite <- app_assoc.
  - constructor; [apply (IH (pre ++ [x])); now rewrite <- app_assoc|]. apply Forall_forall. intros y J.
    assert (E1 : index_of x base = length pre).
    { apply nth_index; auto. rewrite <- E, nth_error_app2, Nat.sub_diag; auto. }
    apply (subseq_in _ H) in J. apply In_nth_error in J as (k & J).
    assert (E2 : index_of y base = length pre + S k).
    { apply nth_index; auto. rewrite <- E, nth_error_app2 by lia. replace (length pre + S k - length pre) with (S k) by lia. exact J. }
    lia.
Qed.

(** ** The standard library *)
Lemma place_perm {A} key (x : A) l : Permutation (x :: l) (place key x l).
Proof. induction l as [|y l IH]; cbn [place]; auto. destruct (key x <? key y); auto. eapply perm_trans; [apply perm_swap|]. now apply perm_skip. Qed.
Lemma sort_perm {A} key (l : list A) : Permutation l (sort_by key l).
Proof. induction l as [|x l IH]; cbn; auto. eapply perm_trans; [apply perm_skip, IH|]. apply place_perm. Qed.
Lemma place_sorted {A} (key : A -> nat) x l : StronglySorted (fun x y => key x <= key y) l -> StronglySorted (fun x y => key x <= key y) (place key x l).
Proof.
  induction 1 as [|y m S1 IH F]; cbn [place]; [repeat constructor|]. destruct (Nat.ltb_spec (key x) (key y)).
  - constructor; [constructor; auto|]. constructor; [lia|]. eapply Forall_impl; [|exact F]. cbn. lia.
  - constructor; auto. eapply Permutation_Forall; [apply place_perm|]. constructor; auto.
Qed.
Lemma sort_sorted {A} key (l : list A) : StronglySorted (fun x y => key x <= key y) (sort_by key l).
Proof. induction l as [|x l IH]; cbn; [constructor|]. now apply place_sorted. Qed.
Lemma seq_filter (f : nat -> bool) n k : k <= n -> (forall i, i < k -> f i = true) -> (forall i, k <= i -> i < n -> f i = false) ->
  length (filter f (seq 0 n)) = k.
Proof.
  intros L A B. replace n with (k + (n - k)) by lia. rewrite seq_app, filter_app, app_length, filter_all, filter_none, seq_length; cbn; [lia| |].
  - intros i I. apply in_seq in I. apply B; lia.
  - intros i I. apply in_seq in I. apply A. lia.
Qed.
Lemma lower_bound_at {S} (f : nat -> bool) n k (s : S) : k <= n -> (forall i, i < k -> f i = true) -> (forall i, k <= i -> i < n -> f i = false) ->
  lower_bound n f s = Ret k s.
Proof.
  intros L A B. unfold lower_bound. replace (partitioned f n) with true.
  - unfold ret. now rewrite (seq_filter f L A B).
  - symmetry. apply forallb_forall. intros i I. apply in_seq in I. destruct (Nat.lt_ge_cases i k) as [H|H].
    + rewrite (A i H). now destruct (f (Datatypes.S i)).
    + rewrite (B (Datatypes.S i)) by lia. reflexivity.
Qed.

(** ** The algorithm *)
Section Alg.
Variable base : list node.
Hypothesis Nd : NoDup base.
Notation pos x := (index_of x base).

(** the entries, sorted *)
Definition table : list (node * nat) := sort_by fst (combine base (seq 0 (length base))).
Definition idx (x : node) : nat := index_of x (map fst table).
Lemma table_perm : Permutation (map fst table) base.
Proof.
  unfold table. rewrite <- sort_perm. replace (map fst (combine base (seq 0 (length base)))) with base; auto.
  generalize 0. induction base as [|x l IH]; intros n; cbn; auto. f_equal. apply IH. now inversion Nd.
Qed.
Lemma table_len : length table = length base.
Proof. rewrite <- table_perm. now rewrite map_length. Qed.
Lemma table_nodup : NoDup (map fst table).
Proof. eapply NoDup_perm; [symmetry; apply table_perm|auto]. Qed.
Lemma table_sorted i j a b : i < j -> nth_error (map fst table) i = Some a -> nth_error (map fst table) j = Some b -> a < b.
Proof.
  intros L A B. assert (Ne : a <> b).
  { intros ->. assert (N := table_nodup). rewrite NoDup_nth_error in N. enough (i = j) by lia. apply N; [apply nth_error_Some|]; congruence. }
  enough (a <= b) by lia. assert (Sr := sort_sorted fst (combine base (seq 0 (length base)))). fold table in Sr. clear - L A B Sr.
  revert i j L A B. induction Sr as [|c l S1 IH F]; intros i j L A B; [destruct i; discriminate|].
  destruct j as [|j]; [lia|]. destruct i as [|i]; cbn in *.
  - injection A as <-. apply nth_error_In in B. apply in_map_iff in B as (d & <- & B). rewrite Forall_forall in F. now apply F.
  - apply (IH i j); auto. lia.
Qed.
Lemma idx_nth x : In x base -> nth_error (map fst table) (idx x) = Some x.
Proof. intros I. apply index_nth. eapply Permutation_in; [symmetry; apply table_perm|auto]. Qed.
Lemma idx_lt x : In x base -> idx x < length table.
Proof. intros I. apply idx_nth in I. rewrite <- (map_length fst). apply nth_error_Some. congruence. Qed.
Lemma idx_inj x y : In x base -> In y base -> idx x = idx y -> x = y.
Proof. intros I J E. apply idx_nth in I, J. rewrite E in I. congruence. Qed.
Lemma table_pos x : In x base -> nth (idx x) table (0, 0) = (x, pos x).
Proof.
  intros I. assert (N := idx_nth x I). assert (L := idx_lt x I).
  assert (E := nth_error_nth' table (0, 0) L). destruct (nth (idx x) table (0, 0)) as (y, n) eqn:Ny.
  apply (map_nth_error fst) in E. rewrite N in E. injection E as <-. f_equal.
  assert (J : In (x, n) (combine base (seq 0 (length base)))).
  { eapply Permutation_in; [symmetry; apply sort_perm with (key := fst)|]. fold table. rewrite <- Ny. now apply nth_In. }
  clear - J Nd. apply In_nth_error in J as (k & J). symmetry. apply nth_index; auto.
  assert (G : forall l m, nth_error (combine l (seq m (length l))) k = Some (x, n) -> nth_error l (n - m) = Some x /\ m <= n).
  { clear. intros l. revert k. induction l as [|a l IH]; intros [|k] m E; cbn in *; try discriminate.
    - injection E as -> ->. rewrite Nat.sub_diag. auto.
    - apply IH in E as (E & L). replace (n - m) with (S (n - S m)) by lia. split; [auto|lia]. }
  apply G in J as (J & _). now rewrite Nat.sub_0_r in J.
Qed.
Lemma localize_ok x s : In x base -> ents s = table -> localize x s = Ret (idx x) s.
Proof.
  intros I E. unfold localize, get, bind, size_of, node_at. rewrite E. apply lower_bound_at.
  - apply Nat.lt_le_incl. now apply idx_lt.
  - intros i L. apply Nat.ltb_lt. assert (Li : i < length table) by (apply idx_lt in I; lia).
    assert (H := nth_error_nth' table (0, 0) Li). apply (map_nth_error fst) in H. eapply table_sorted; [exact L|exact H|now apply idx_nth].
  - intros i L Li. apply Nat.ltb_ge. assert (H := nth_error_nth' table (0, 0) Li). apply (map_nth_error fst) in H.
    apply Nat.lt_eq_cases in L as [L|<-]; [|rewrite idx_nth in H by auto; injection H as H; rewrite <- H; auto].
    apply Nat.lt_le_incl. eapply table_sorted; [exact L|now apply idx_nth|exact H].
Qed.
Lemma within_ok i s : i < size_of s -> within i s = Ret tt s.
Proof. intros H. unfold within. now rewrite (proj2 (Nat.ltb_lt _ _) H). Qed.

(** consecutive elements are linked by previous *)
Definition linked (s : mst) (c : list node) : Prop := adj (fun x y => prv s (idx y) = idx x) c.
Lemma linked_ext s s' c : (forall x, In x c -> prv s' (idx x) = prv s (idx x)) -> linked s c -> linked s' c.
Proof.
  unfold linked. intros H L. eapply adj_mono; [exact L|]. intros l1 a b l2 -> E. cbn in E. rewrite <- E. apply H, in_or_app. right. cbn. auto.
Qed.
Record piles (s : mst) (ys : list node) : Prop := mkPiles {
  p_ents : ents s = table;
  p_srt : srt s = true;
  p_in : incl ys base;
  p_num : np s <= length ys;
  p_lt : forall i j, i < j -> j < np s -> ptop s i < ptop s j;
  p_top : forall j, j < np s -> exists c x, length c = j /\ subseq (c ++ [x]) ys /\ inc base (c ++ [x]) /\ linked s (c ++ [x]) /\
            pent s j = idx x /\ ptop s j = pos x;
  p_max : forall c x, subseq (c ++ [x]) ys -> inc base (c ++ [x]) -> length c < np s /\ ptop s (length c) <= pos x;
  p_not : forall x, In x ys -> ordd s (idx x) = false }.

Lemma inc_snoc c x y : inc base ((c ++ [x]) ++ [y]) <-> inc base (c ++ [x]) /\ pos x < pos y.
Proof.
  unfold inc. induction c as [|a c IH]; cbn.
  - split.
    + intros H. inversion H as [|? ? H1 F]; subst. split; [repeat constructor|]. now inversion F.
    + intros (_ & L). repeat constructor. auto.
  - split.
    + intros H. inversion H as [|? ? H1 F]; subst. apply IH in H1 as (H1 & L). split; auto. constructor; auto.
      rewrite Forall_forall in *. intros z J. apply F. apply in_or_app. auto.
    + intros (H & L). inversion H as [|? ? H1 F]; subst. constructor; [now apply IH|]. rewrite Forall_forall in *. intros z J.
      apply in_app_or in J as [J|[<-|[]]]; auto. apply Nat.lt_trans with (pos x); auto. apply F, in_or_app. right. now left.
Qed.
Lemma add_node_ok s ys x : piles s ys -> NoDup (ys ++ [x]) -> In x base ->
  exists s', add_node x s = Ret tt s' /\ piles s' (ys ++ [x]).
Proof.
  intros P N Ix. assert (Nx : ~ In x ys).
  { apply NoDup_app_iff in N as (_ & _ & N). intros J. apply (N x J). now left. }
  assert (Lx := idx_lt x Ix).
  set (n := pos x). set (s1 := mkM (ents s) (prv s) (upd (ordd s) (idx x) false) (ptop s) (pent s) (srt s) (np s)).
  (* the first pile which does not end below x *)
  assert (Pp : exists p, p <= np s /\ (forall i, i < p -> ptop s i < n) /\ (forall i, p <= i -> i < np s -> n <= ptop s i)).
  { assert (G : forall k, k <= np s -> exists p, p <= k /\ (forall i, i < p -> ptop s i < n) /\ (forall i, p <= i -> i < k -> n <= ptop s i)).
    { induction k as [|k IH]; intros L; [exists 0; split; [lia|split; intros; lia]|].
      destruct (IH ltac:(lia)) as (p & Lp & A & B). destruct (Nat.lt_ge_cases p k) as [H|H].
      - exists p. splits; [lia|auto|]. intros i L1 L2. destruct (Nat.eq_dec i k) as [->|]; [|apply B; lia].
        assert (B' := B p (Nat.le_refl p) H). assert (T := p_lt P H ltac:(lia)). lia.
      - assert (p = k) as -> by lia. destruct (Nat.lt_ge_cases (ptop s k) n) as [T|T].
        + exists (S k). splits; [lia| |intros; lia]. intros i Li. destruct (Nat.eq_dec i k) as [->|]; auto. apply A. lia.
        + exists k. splits; [lia|auto|]. intros i L1 L2. assert (i = k) as -> by lia. auto. }
    apply (G (np s)). auto. }
  destruct Pp as (p & Lp & Below & Above).
  assert (Cnt : S (length ys) <= length base).
  { replace (S (length ys)) with (length (ys ++ [x])) by (rewrite app_length; cbn; lia).
    apply NoDup_incl_length; auto. intros y J. apply in_app_or in J as [J|[<-|[]]]; auto. now apply (p_in P). }
  assert (Lpt : p < length table) by (rewrite table_len; assert (H := p_num P); lia).
  set (s2 := mkM (ents s) (prv s) (upd (ordd s) (idx x) false) (upd (ptop s) p n) (upd (pent s) p (idx x)) (srt s) (np s)).
  set (prv3 := if 0 <? p then upd (prv s) (idx x) (pent s (p - 1)) else prv s).
  set (s3 := mkM (ents s) prv3 (upd (ordd s) (idx x) false) (upd (ptop s) p n) (upd (pent s) p (idx x)) (srt s) (np s)).
  set (np4 := if p =? np s then S (np s) else np s).
  set (s4 := mkM (ents s) prv3 (upd (ordd s) (idx x) false) (upd (ptop s) p n) (upd (pent s) p (idx x)) (srt s) np4).
  assert (Sz : size_of s = length table) by (unfold size_of; now rewrite (p_ents P)).
  exists s4. split.
  { unfold add_node, bind at 1. rewrite (@localize_ok x s Ix (p_ents P)).
    rewrite (@bind_ret _ _ _ (set_ord (idx x) false) _ _ tt s1).
    2:{ unfold set_ord. rewrite (bind_ret _ _ _ (@within_ok (idx x) s ltac:(lia))). reflexivity. }
    unfold bind at 1. unfold get at 1.
    replace (pos_at s1 (idx x)) with n.
    2:{ unfold pos_at, s1. cbn [ents]. rewrite (p_ents P), table_pos; auto. }
    rewrite (@bind_ret _ _ _ _ _ _ p s1).
    2:{ apply lower_bound_at; [exact Lp| |].
        - intros i L. apply Nat.ltb_lt. now apply Below.
        - intros i L1 L2. apply Nat.ltb_ge. now apply Above. }
    rewrite (@bind_ret _ _ _ (set_pile p n (idx x)) _ _ tt s2).
    2:{ unfold set_pile. rewrite (bind_ret _ _ _ (@within_ok (p) s1 ltac:(cbn; fold (size_of s); lia))). reflexivity. }
    rewrite (@bind_ret _ _ _ _ _ _ tt s3).
    2:{ unfold s3, prv3. destruct (Nat.ltb_spec 0 p) as [Hp|Hp]; [|reflexivity].
        rewrite (bind_ret _ _ _ (@within_ok (p - 1) s2 ltac:(cbn; fold (size_of s); lia))). unfold bind at 1, get at 1.
        unfold set_prv. rewrite (bind_ret _ _ _ (@within_ok (idx x) s2 ltac:(cbn; fold (size_of s); lia))). unfold bind, get, put. cbn [s2 ents prv ordd ptop pent srt np].
        rewrite upd_neq by lia. reflexivity. }
    unfold s4, np4. cbn [s1 np]. destruct (p =? np s); reflexivity. }
  assert (Np4 : p < np4 /\ np s <= np4 /\ (np4 = np s \/ p = np s /\ np4 = S (np s))).
  { unfold np4. destruct (Nat.eqb_spec p (np s)); lia. }
  assert (Lk : forall c, incl c ys -> linked s c -> linked s4 c).
  { intros c I. apply linked_ext. intros y J. cbn [s4 prv]. unfold prv3. destruct (0 <? p); auto. apply upd_neq.
    intros E. apply idx_inj in E; [subst; auto| |auto]. now apply (p_in P), I. }
  constructor; cbn [s4 ents srt np ptop pent ordd].
  - apply P.
  - apply P.
  - intros y J. apply in_app_or in J as [J|[<-|[]]]; auto. now apply (p_in P).
  - rewrite app_length. cbn. assert (H := p_num P). lia.
  - intros i j L1 L2. destruct (Nat.eq_dec i p) as [->|Ni].
    + rewrite upd_eq, upd_neq by lia. assert (A1 := Above p (Nat.le_refl p) ltac:(lia)). assert (T := p_lt P L1 ltac:(lia)). lia.
    + rewrite upd_neq by auto. destruct (Nat.eq_dec j p) as [->|Nj].
      * rewrite upd_eq. now apply Below.
      * rewrite upd_neq by auto. apply (p_lt P); lia.
  - intros j Lj. destruct (Nat.eq_dec j p) as [->|Nj].
    + rewrite !upd_eq. destruct p as [|q].
      * exists [], x. cbn. split; [auto|]. split; [apply (subseq_app (l := []) (sub_nil ys) (subseq_refl [x]))|]. split; [constructor; constructor|]. auto.
      * destruct (p_top P (j := q) ltac:(lia)) as (c & y & Lc & Sc & Ic & Kc & Ec & Tc).
        exists (c ++ [y]), x. assert (H := Below q ltac:(lia)). splits; auto.
        -- rewrite app_length. cbn. lia.
        -- apply subseq_app; [auto|apply subseq_refl].
        -- apply inc_snoc. split; auto. fold n. lia.
        -- unfold linked. rewrite <- app_assoc. cbn [app]. apply adj_app. split.
           ++ apply Lk; auto. intros z J. eapply subseq_in; eauto.
           ++ cbn [adj]. split; auto. cbn [s4 prv]. unfold prv3. cbn [Nat.ltb Nat.leb]. rewrite upd_eq. cbn. rewrite Nat.sub_0_r. auto.
    + rewrite !upd_neq by auto. destruct (p_top P (j := j) ltac:(lia)) as (c & y & Lc & Sc & Ic & Kc & Ec & Tc).
      exists c, y. splits; auto; [now apply subseq_app_l|]. apply Lk; auto. intros z J. eapply subseq_in; eauto.
  - intros c y Sc Ic. apply subseq_snoc_inv in Sc as [Sc|(m & E & Sm)].
    + destruct (p_max P c y Sc Ic) as (Lc & Tc). split; [lia|]. destruct (Nat.eq_dec (length c) p) as [Ep|Ne].
      * rewrite Ep, upd_eq. assert (A1 := Above p (Nat.le_refl p) ltac:(lia)). rewrite Ep in Tc. lia.
      * now rewrite upd_neq.
    + apply app_inj_tail in E as (-> & ->). destruct m as [|z m _] using rev_ind.
      * cbn [length]. split; [lia|]. destruct p as [|q]; [rewrite upd_eq; auto|]. rewrite upd_neq by lia. apply Nat.lt_le_incl. apply Below. lia.
      * apply inc_snoc in Ic as (Ic & Lz). destruct (p_max P m z Sm Ic) as (Lm & Tm). rewrite app_length. cbn [length].
        assert (H : length m < p). { destruct (Nat.lt_ge_cases (length m) p) as [|G]; auto. specialize (Above _ G Lm). fold n in Lz. lia. }
        split; [lia|]. destruct (Nat.eq_dec (length m + 1) p) as [->|Ne]; [rewrite upd_eq; auto|].
        rewrite upd_neq by auto. apply Nat.lt_le_incl, Below. lia.
  - intros y J. unfold upd. destruct (Nat.eqb_spec (idx y) (idx x)); auto. apply (p_not P). apply in_app_or in J as [J|[<-|[]]]; congruence.
Qed.
Lemma add_nodes_ok xs : forall s ys, piles s ys -> NoDup (ys ++ xs) -> incl xs base -> exists s', add_nodes xs s = Ret tt s' /\ piles s' (ys ++ xs).
Proof.
  induction xs as [|x xs IH]; intros s ys P N I; cbn [add_nodes].
  - exists s. rewrite app_nil_r. auto.
  - assert (E : ys ++ x :: xs = (ys ++ [x]) ++ xs) by now rewrite <- app_assoc.
    destruct (@add_node_ok s ys x P) as (s1 & E1 & P1).
    + rewrite E in N. now apply NoDup_app_iff in N as (N & _).
    + apply I. now left.
    + rewrite (bind_ret _ _ _ E1), E. apply IH; auto; [now rewrite <- E|]. intros y J. apply I. now right.
Qed.
(** marking the elements of a chain *)
Lemma mark_ok c : forall x s, incl (c ++ [x]) base -> ents s = table -> linked s (c ++ [x]) ->
  exists s', mark (S (length c)) (idx x) s = Ret tt s' /\ ents s' = table /\ srt s' = srt s /\
    forall i, ordd s' i = true <-> ordd s i = true \/ exists y, In y (c ++ [x]) /\ i = idx y.
Proof.
  induction c as [|y c IH] using rev_ind; intros x s I E L; cbn [mark].
  - assert (Lx : idx x < size_of s) by (unfold size_of; rewrite E; apply idx_lt, I; now left).
    eexists. unfold set_ord, bind, get, put. rewrite (@within_ok (idx x) s Lx). cbn. split; [reflexivity|]. cbn. splits; auto.
    intros i. unfold upd. destruct (Nat.eqb_spec i (idx x)) as [->|Ne]; split; eauto.
    now intros [H|(z & [<-|[]] & ->)].
  - assert (Lx : idx x < size_of s) by (unfold size_of; rewrite E; apply idx_lt, I, in_or_app; right; now left).
    unfold linked in L. rewrite <- app_assoc in L. cbn [app] in L. apply adj_app in L as (L & (Py & _)).
    set (s1 := mkM (ents s) (prv s) (upd (ordd s) (idx x) true) (ptop s) (pent s) (srt s) (np s)).
    rewrite (@bind_ret _ _ _ (set_ord (idx x) true) _ _ tt s1).
    2:{ unfold set_ord. now rewrite (bind_ret _ _ _ (@within_ok (idx x) s Lx)). }
    unfold bind, get at 1. cbn [s1 prv]. rewrite Py, app_length, Nat.add_1_r.
    destruct (IH y s1) as (s' & Es & En & So & Or); auto; [intros z J; apply I, in_or_app; now left|].
    exists s'. splits; auto. intros i. rewrite Or. cbn [s1 ordd]. unfold upd. destruct (Nat.eqb_spec i (idx x)) as [->|Ne].
    + split; [|auto]. intros _. right. exists x. split; auto. apply in_or_app. right. now left.
    + split; (intros [H|(z & J & ->)]; [auto|]).
      * right. exists z. split; auto. apply in_or_app. now left.
      * right. exists z. split; auto. apply in_app_or in J as [J|[<-|[]]]; [auto|easy].
Qed.

(** [s] is ready to compare sequences with [base]: nodes have just been added, or a sequence has been compared before *)
Definition ready (s : mst) : Prop := if srt s then ents s = table else ents s = combine base (seq 0 (length base)).
Lemma execute_ok s xs : ready s -> NoDup xs -> incl xs base -> exists s', execute xs s = Ret tt s' /\ ents s' = table /\ srt s' = true /\
  exists c, subseq c xs /\ subseq c base /\ (forall x, In x xs -> (ordd s' (idx x) = true <-> In x c)) /\
    forall ys, subseq ys xs -> subseq ys base -> length ys <= length c.
Proof.
  intros Rd N I. unfold execute.
  set (s0 := mkM table (prv s) (ordd s) (ptop s) (pent s) true 0).
  rewrite (@bind_ret _ _ _ begin_algorithm _ _ tt s0).
  2:{ unfold begin_algorithm, bind, get, put, set_np, ready, ret in *. unfold s0. destruct (srt s) eqn:E; cbn; rewrite ?Rd, ?E; reflexivity. }
  assert (P0 : piles s0 []).
  { constructor; cbn; auto; try lia; try easy. intros c x H. inversion H as [|? ? ? H'|? ? ? H']; subst. destruct c; discriminate. }
  destruct (@add_nodes_ok xs s0 [] P0) as (s1 & E1 & P1); auto. cbn [app] in P1. rewrite (bind_ret _ _ _ E1).
  assert (Mx : forall ys, subseq ys xs -> subseq ys base -> length ys <= np s1).
  { intros ys Sy Sb. destruct ys as [|y ys _] using rev_ind; [cbn; lia|]. rewrite app_length. cbn.
    destruct (p_max P1 ys y Sy) as (L & _); [now apply subseq_inc|]. lia. }
  unfold finish_algorithm, bind at 1, get at 1. destruct (Nat.ltb_spec 0 (np s1)) as [L|L].
  - destruct (p_top P1 (j := np s1 - 1) ltac:(lia)) as (c & x & Lc & Sc & Ic & Kc & Ec & Tc).
    assert (Ib : incl (c ++ [x]) base) by (intros z J; apply I; eapply subseq_in; eauto).
    assert (Sz : size_of s1 = length base) by (unfold size_of; rewrite (p_ents P1); apply table_len).
    assert (Ln : np s1 <= length base). { eapply Nat.le_trans; [apply P1|]. apply NoDup_incl_length; auto. }
    rewrite (bind_ret _ _ _ (@within_ok (np s1 - 1) s1 ltac:(lia))). rewrite Ec.
    destruct (@mark_ok c x s1 Ib (p_ents P1) Kc) as (s' & Es & En & So & Or). rewrite Lc in Es. replace (S (np s1 - 1)) with (np s1) in Es by lia.
    exists s'. splits; auto; [rewrite So; apply P1|]. exists (c ++ [x]). splits; auto.
    + now apply inc_subseq.
    + intros y J. rewrite Or. rewrite (p_not P1 y J). split.
      * intros [H|(z & Jz & E)]; [discriminate|]. apply idx_inj in E; auto. now subst.
      * intros H. right. eauto.
    + intros ys Sy Sb. specialize (Mx ys Sy Sb). rewrite app_length. cbn. lia.
  - exists s1. splits; auto; try apply P1. exists []. split; [constructor|]. split; [constructor|]. split.
    + intros x J. now rewrite (p_not P1 x J).
    + intros ys Sy Sb. specialize (Mx ys Sy Sb). cbn. lia.
Qed.

(** The elements considered to be in order: the same relative order as in the base sequence, and no larger set has
    this property. *)
Theorem C45_longest s xs : ready s -> NoDup xs -> incl xs base ->
  exists s' ok, execute xs s = Ret tt s' /\ ready s' /\ (forall x, In x xs -> is_ordered x s' = Ret (ok x) s') /\
    subseq (filter ok xs) base /\ forall ys, subseq ys xs -> subseq ys base -> length ys <= length (filter ok xs).
Proof.
  intros Rd N I. destruct (@execute_ok s xs Rd N I) as (s' & E & En & So & c & Sx & Sb & Or & Mx).
  exists s', (fun x => ordd s' (idx x)). assert (F : filter (fun x => ordd s' (idx x)) xs = c) by now apply subseq_filter.
  rewrite F. splits; auto.
  - unfold ready. now rewrite So.
  - intros x J. unfold is_ordered, bind. rewrite (@localize_ok x s' (I x J) En). rewrite within_ok; [reflexivity|].
    unfold size_of. rewrite En. now apply idx_lt, I.
Qed.
Lemma added_ready a b c d e : ready (added base a b c d e).
Proof. reflexivity. Qed.
End Alg.

(** the sequences of the comment of index_matcher.hpp:33-43, nodes being numbered in another order *)
Definition node_of (i : nat) : node := nth i [17; 4; 9; 12; 3; 8; 16; 5; 2; 30] 0.
Definition ten : list node := map node_of (seq 0 10).
Definition eight : list node := map node_of [1; 4; 2; 3; 0; 7; 8; 9].
Definition junk_state : mst := added ten (fun i => 7 * i) (fun i => Nat.even i) (fun i => 10 - i) (fun i => i + 3) 4.
Example match_hyp : ready ten junk_state /\ NoDup ten /\ NoDup eight /\ incl eight ten.
Proof.
  splits; [reflexivity| | |vm_compute; intuition].
  - vm_compute. repeat (constructor; [cbn; intuition discriminate|]). constructor.
  - vm_compute. repeat (constructor; [cbn; intuition discriminate|]). constructor.
Qed.
Example match_run : match execute eight junk_state with
  | Ret _ s => map (fun x => match is_ordered x s with Ret b _ => b | _ => false end) eight = [true; false; true; true; false; true; true; true]
  | _ => False
  end.
Proof. vm_compute. reflexivity. Qed.
Print Assumptions C45_longest.
