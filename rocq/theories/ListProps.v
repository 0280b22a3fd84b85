(** C29, C30, C34, C36: sequenced indices of containers with any other indices.
    Sources: /repo/include/boost/multi_index/sequenced_index.hpp, detail/seq_index_ops.hpp *)
From Verif Require Import Prelude SeqModel SeqSpec SeqHeap SeqProofs SeqUser Layer LayerBase PosOk SeqIdx
  Stack View Container ContOk Iops Up Down History ContSpec Client ContEx ContProps Focus Keyed KeyedProps.
From Verif Require RndMove RangeProps.
Set Implicit Arguments.

(** the links determine the sequence *)
Lemma seq_fun t h l l' : seq_has h t l -> seq_has h t l' -> l = l'.
Proof.
  intros W W'.
  assert (X : forall m m' a, l = a ++ m -> l' = a ++ m' -> m = m').
  { induction m as [|x m IH]; intros m' a E E'.
    - destruct m' as [|y m']; auto. exfalso. rewrite app_nil_r in E. subst l'.
      assert (N := seq_has_nd W'). apply NoDup_cons_iff in N as (Nh & _). apply Nh.
      destruct a as [|z a' _] using rev_ind.
      + assert (B := begin_at _ _ _ _ _ W). assert (B' := begin_at _ _ _ _ _ W'). rewrite E in B. cbn in *. left. congruence.
      + assert (B := next_at _ _ a' [] _ _ z ltac:(rewrite E in W; exact W)).
        unfold seq_has in W'. rewrite <- app_assoc in W'. assert (B' := next_at _ _ a' (y :: m') _ _ z W'). cbn in *.
        apply in_or_app. right. left. congruence.
    - destruct m' as [|y m'].
      + exfalso. rewrite app_nil_r in E'. subst l.
        assert (N := seq_has_nd W). apply NoDup_cons_iff in N as (Nh & _). apply Nh.
        destruct a as [|z a' _] using rev_ind.
        * assert (B := begin_at _ _ _ _ _ W). assert (B' := begin_at _ _ _ _ _ W'). rewrite E' in B'. cbn in *. left. congruence.
        * assert (B := next_at _ _ a' [] _ _ z ltac:(rewrite E' in W'; exact W')).
          unfold seq_has in W. rewrite <- app_assoc in W. assert (B' := next_at _ _ a' (x :: m) _ _ z W). cbn in *.
          apply in_or_app. right. left. congruence.
      + assert (x = y).
        { destruct a as [|z a' _] using rev_ind.
          - assert (B := begin_at _ _ _ _ _ W). assert (B' := begin_at _ _ _ _ _ W'). rewrite E in B. rewrite E' in B'. cbn in *. congruence.
          - rewrite <- app_assoc in E, E'. rewrite E in W. rewrite E' in W'.
            assert (B := next_at _ _ a' (x :: m) _ _ z W). assert (B' := next_at _ _ a' (y :: m') _ _ z W'). cbn in *. congruence. }
        subst y. f_equal. apply (IH m' (a ++ [x])); now rewrite <- app_assoc. }
  exact (X l l' [] eq_refl eq_refl).
Qed.
Lemma uniq_perm rel l : exists m, Permutation l (uniq rel l ++ m).
Proof.
  assert (X : forall l a, exists m, Permutation l (uniq_from rel a l ++ m)).
  { induction l0 as [|x l0 IH]; intros a; cbn; [exists []; auto|]. destruct (rel x a).
    - destruct (IH a) as (m & P). exists (x :: m). rewrite P at 1. perm.
    - destruct (IH x) as (m & P). exists m. cbn. now constructor. }
  destruct l as [|a l]; cbn; [exists []; auto|]. destruct (X l a) as (m & P). exists m. now constructor.
Qed.

Section Props.
Variable V : Type.
Variable throws : nat -> bool.
Variable pick : list node -> node.
Variable dv : V.
Variable hd : node.
(** the indices before and after the sequenced index looked at *)
Variables cs1 cs2 : list (code V).
Variables jn jp : node.
Definition this : code V := Sequenced V jn jp.
Notation all := (Focus.all cs1 cs2 this).

Notation box := (box throws pick hd all).
Notation sequences := (@sequences V throws pick hd all).
Notation count := (@count V throws pick hd all).
Notation value_of := (@value_of V throws pick dv hd all).
Notation memory := (@memory V throws pick hd all).
Notation calls := (@calls V throws pick hd all).
Notation reachable := (@reachable V throws pick hd all).
Notation setting := (setting pick hd all).
Notation sup := (stack throws pick hd (mem_world V) cs2).   (* the super of the index *)
Notation this_of := (@down V throws pick hd (mem_world V) (this :: cs2) cs1).
Notation holds := (@Focus.holds V throws pick hd cs1 cs2 this).
Notation gone := (@Focus.gone V throws pick hd cs1 cs2 this).
Notation of_index := (@Focus.of_index V throws pick hd cs1 cs2 this).
Notation next_of := (@Keyed.next_of V throws pick hd cs1 cs2 this).
Notation erase_at := (@Keyed.erase_at V throws pick hd cs1 cs2 this).
Notation erased_all := (@KeyedProps.erased_all V throws pick hd cs1 cs2 this).
Implicit Types (s : St box) (lk nh l : list node) (ls : list (list node)).

(** ** Model *)

(** the links of the index *)
Definition links s : sst := fst (this_of s).
(** an operation on the links, as an operation of the container *)
Definition own {A} (m : SM A) : M (St box) A := of_index (ownM m).
(** an operation of the index which leaves the elements alone *)
Definition op_index (o : iop V) : M (St box) unit := run_index throws pick hd all (length cs1, o).

(** insert(position,x), sequenced_index.hpp:311-333; emplace, 1009-1022, is the same with the value built
    from arguments.  push_front and push_back, 293-305 *)
Definition insert_at (pos : node) (v : V) : M (St box) (node * bool) :=
  p <- c_insert box v None ;;
  (if (snd p && negb (pos =? hd))%bool then own (relink pos (fst p)) else ret tt) ;;;
  ret p.
Definition push_front (v : V) : M (St box) (node * bool) := b <- own (s_begin hd) ;; insert_at b v.
Definition push_back (v : V) : M (St box) (node * bool) := insert_at hd v.
(** insert(position,first,last), insert_iter, 972-984; insert(position,n,x), 335-341 and 986-993, with
    n times the same value.  The values are those found in the range *)
Fixpoint insert_all (pos : node) (vs : list V) : M (St box) unit :=
  match vs with
  | [] => ret tt
  | v :: vs => insert_at pos v ;;; insert_all pos vs
  end.
(** pop_front and pop_back, 297 and 306 *)
Definition pop_front : M (St box) unit := b <- own (s_begin hd) ;; erase_at b ;;; ret tt.
Definition pop_back : M (St box) unit := x <- own (decrement hd) ;; erase_at x ;;; ret tt.
Fixpoint pops (n : nat) : M (St box) unit :=
  match n with O => ret tt | S n => pop_back ;;; pops n end.
(** resize(n,x), 274-279 *)
Definition resize (n : nat) (v : V) : M (St box) unit :=
  c <- size box ;;
  if c <? n then insert_all hd (repeat v (n - c)) else if n <? c then pops (c - n) else ret tt.
(** assign(first,last), assign_iter, 957-963; assign(n,value), 207-212 and 965-970, with n times the same value *)
Fixpoint append (vs : list V) : M (St box) unit :=
  match vs with
  | [] => ret tt
  | v :: vs => c_insert box v None ;;; append vs
  end.
Definition assign (vs : list V) : M (St box) unit := c_clear box ;;; append vs.
(** pred( *x) and binary_pred( *x,*y): reading the values, then a call which may throw *)
Definition test (pred : V -> bool) (x : node) : M (St box) bool :=
  v <- basM box (value x) ;; basM box (tick throws) ;;; ret (pred v).
Definition test2 (pred : V -> V -> bool) (x y : node) : M (St box) bool :=
  v <- basM box (value x) ;; w <- basM box (value y) ;; basM box (tick throws) ;;; ret (pred v w).
(** sequenced_index_remove, seq_index_ops.hpp:34-43; [fuel] bounds the number of turns *)
Fixpoint remove_loop (fuel : nat) (pred : V -> bool) (first last : node) : M (St box) unit :=
  if first =? last then ret tt else
  match fuel with
  | 0 => ub
  | S f =>
    b <- test pred first ;;
    if b : bool then y <- next_of first ;; erase_at first ;;; remove_loop f pred y last
    else y <- next_of first ;; remove_loop f pred y last
  end.
Definition remove_if (pred : V -> bool) : M (St box) unit :=
  n <- size box ;; b <- own (s_begin hd) ;; remove_loop n pred b hd.
(** sequenced_index_unique, seq_index_ops.hpp:45-57 *)
Fixpoint unique_loop (fuel : nat) (pred : V -> V -> bool) (first last : node) : M (St box) unit :=
  middle <- next_of first ;;
  if middle =? last then ret tt else
  match fuel with
  | 0 => ub
  | S f =>
    b <- test2 pred middle first ;;
    if b : bool then erase_at middle ;;; unique_loop f pred first last
    else unique_loop f pred middle last
  end.
Definition unique (pred : V -> V -> bool) : M (St box) unit :=
  n <- size box ;; b <- own (s_begin hd) ;;
  if b =? hd then ret tt else unique_loop n pred b hd.

(** repeated insertion: see [RangeProps.accepted] *)
Notation accepted := (RangeProps.accepted all).
Notation acc_skip := (RangeProps.acc_skip).

(** ** Proofs *)
Hypothesis St_ : setting.
Notation O := (box_ok throws dv St_).

Lemma open_seq s lk nh l : reachable s lk nh -> holds s l -> seq_has hd (links s) l.
Proof. intros R H. destruct (open_at dv St_ R H) as (a & (A & _) & -> & _). exact A. Qed.
Lemma own_ret A B (m : SM A) (st : sst * B) r : m (fst st) = Ret r (fst st) -> ownM m st = Ret r st.
Proof. intros E. unfold ownM, lensM. rewrite E. now rewrite <- surjective_pairing. Qed.
Lemma own_ro A (m : SM A) s r : m (links s) = Ret r (links s) -> own m s = Ret r s.
Proof. intros E. unfold own. apply of_index_ro. refine (own_ret _ _ _). exact E. Qed.
Lemma own_run A (m : SM A) s :
  match own m s with
  | Ret r s' => m (links s) = Ret r (links s') /\ calls s' = calls s
  | Exn s' => m (links s) = Exn (links s')
  | UB => m (links s) = UB
  end.
Proof.
  assert (E := index_run throws pick hd cs1 cs2 this (ownM m) s). fold (own m) in E.
  unfold ownM, lensM in E. destruct (own m s) as [r s'|s'|].
  - assert (C : snd (this_of s') = snd (this_of s) /\ m (links s) = Ret r (links s')).
    { unfold links. destruct (this_of s) as (r0, t0). cbn [fst snd] in *. destruct (m r0); try discriminate E. injection E as <- E.
      rewrite <- E. auto. }
    destruct C as (C1 & C2). split; auto.  rewrite !calls_this. exact (f_equal (fun t => tk (bget sup t)) C1).
  - unfold links. destruct (this_of s) as (r0, t0). cbn [fst snd] in *. destruct (m r0); try discriminate E. injection E as E.
    now rewrite <- E.
  - unfold links. destruct (this_of s) as (r0, t0). cbn [fst snd] in *. now destruct (m r0).
Qed.
Lemma count_below s : cget sup (snd (this_of s)) = count s.
Proof. exact (down_cget throws pick hd (mem_world V) (this :: cs2) cs1 s). Qed.
Lemma own_move s (o : sop) : own (exec_sop (count s + 1) hd o) s = op_index (Move V o) s.
Proof.
  unfold op_index. rewrite (run_of_index throws pick hd cs1 cs2 this (Move V o) s). unfold own.
  rewrite !of_index_eq. assert (C := count_below s). rewrite <- C.
  change (irun throws pick hd this sup (Move V o) (this_of s)) with
    (ownM (exec_sop (cget sup (snd (this_of s)) + 1) hd o) (fst (this_of s), snd (this_of s))).
  now rewrite <- surjective_pairing.
Qed.

(** ** C29 *)
(** the links form a doubly linked ring through the elements and end() *)
Theorem C29_box_links s lk nh l : reachable s lk nh -> holds s l -> seq_is (links s) hd l /\ count s = length l.
Proof.
  intros R H. split.
  - assert (W := open_seq R H). apply (heap_wf (links s) [(hd, l)] []) in W. destruct W as (W & _). now inversion W.
  - destruct (open_at dv St_ R H) as (a & _ & _ & _ & _ & _ & _ & C & _). exact C.
Qed.
Theorem C29_box_begin s lk nh l : reachable s lk nh -> holds s l -> own (s_begin hd) s = Ret (List.hd hd l) s.
Proof.
  intros R H. apply own_ro. assert (W := open_seq R H). unfold s_begin, get_next. now rewrite (begin_at _ _ _ _ _ W).
Qed.
Theorem C29_box_next s lk nh l1 x l2 : reachable s lk nh -> holds s (l1 ++ x :: l2) -> own (increment x) s = Ret (List.hd hd l2) s.
Proof.
  intros R H. apply own_ro. assert (W := open_seq R H). unfold increment, get_next. now rewrite (next_at _ _ _ _ _ _ _ W).
Qed.
(** --, from an element or from end() *)
Theorem C29_box_prior s lk nh l1 x l2 : reachable s lk nh -> holds s (l1 ++ x :: l2) -> own (decrement (List.hd hd l2)) s = Ret x s.
Proof.
  intros R H. apply own_ro. assert (W := open_seq R H). unfold decrement, get_prior.
  assert (E : pr (links s) (List.hd hd l2) = Some x); [|now rewrite E].
  destruct l2 as [|y l2]; [exact (prior_end_at _ _ _ _ _ _ W)|]. cbn [List.hd].
  apply (wf_rot _ (hd :: l1) (x :: y :: l2)) in W. destruct W as (W & _). inversion_clear W as [|? ? Hr _]. cbn in Hr. apply Hr.
Qed.
(** a move done to the links *)
Lemma move_effect s lk nh ls l l' o : reachable s lk nh -> sequences s = Some ls -> nth_error ls (length cs1) = Some l ->
  sstep hd o (l, []) (l', []) -> RndMove.moving o = true ->
  match own (exec_sop (count s + 1) hd o) s with
  | Ret _ s' => reachable s' lk nh /\ memory s' = memory s /\ calls s' = calls s /\
      sequences s' = Some (set_nth (length cs1) l' ls) /\ holds s' l'
  | _ => False
  end.
Proof.
  intros R Sq Nt Sp Mv.
  assert (Al : iallowed hd this l (Move V o)) by (cbn; eauto).
  assert (W := index_effect dv cs1 cs2 this St_ (Move V o) R Sq Nt Al). change (run_index _ _ _ _ _ s) with (op_index (Move V o) s) in W.
  rewrite <- own_move in W.
  assert (H : holds s l) by (exists ls; auto). assert (A := open_seq R H). destruct (C29_box_links R H) as (_ & C).
  destruct (exec_sop_spec (count s + 1) hd [] _ _ _ _ _ _ Sp A) as (t' & E & W' & _); [lia|].
  assert (Y := own_run (exec_sop (count s + 1) hd o) s).
  destruct (own (exec_sop (count s + 1) hd o) s) as [u s'|s'|]; [destruct Y as (Y & Yc)| |]; rewrite E in Y; [|discriminate Y|discriminate Y].
  injection Y as _ Y. destruct W as (R' & M & _ & Q & l2 & _ & Sq' & H').
  assert (A2 := open_seq R' H'). rewrite <- Y in A2. assert (l2 = l') by (eapply seq_fun; eauto).
  subst l2. splits; auto.
Qed.
Lemma fresh_value s s' x v lk nh : memory s' = (x, Some v) :: memory s -> ~ In x (map fst (memory s)) -> reachable s lk nh ->
  value_of s' x = v /\ forall y, In y lk -> value_of s' y = value_of s y.
Proof.
  intros M Nx R. unfold Client.value_of, val. unfold Client.memory in M. rewrite M. cbn. rewrite Nat.eqb_refl. split; auto.
  intros y Iy. destruct (Nat.eqb_spec y x) as [->|]; auto. exfalso. apply Nx.
  destruct (C03_consistent dv St_ R) as (ls' & Sn). eapply Permutation_in; [symmetry; apply (sn_mem Sn)|]. right. apply in_or_app. auto.
Qed.
Lemma same_value s s' x : memory s' = memory s -> value_of s' x = value_of s x.
Proof. intros M. unfold Client.value_of, val. unfold Client.memory in M. now rewrite M. Qed.

(** insertion before a position: end(), or an element *)
Theorem C29_box_insert s lk nh l1 l2 v : reachable s lk nh -> holds s (l1 ++ l2) ->
  match insert_at (List.hd hd l2) v s with
  | Ret (x, true) s' => holds s' (l1 ++ x :: l2) /\ memory s' = (x, Some v) :: memory s /\ ~ In x (map fst (memory s)) /\
      reachable s' (x :: lk) nh
  | Ret (x, false) s' => holds s' (l1 ++ l2) /\ memory s' = memory s /\ In x lk /\ conflict all v (value_of s x) /\ reachable s' lk nh
  | Exn s' => holds s' (l1 ++ l2) /\ memory s' = memory s /\ blown throws (calls s) (calls s') /\ reachable s' lk nh
  | UB => False
  end.
Proof.
  intros R H. assert (H0 := H). destruct H as (ls & Sq & Nt). assert (W := insert_effect dv cs1 cs2 this St_ v R Sq Nt).
  unfold insert_at, bind.
  destruct (c_insert box v None s) as [(x, [|]) s1|s1|]; [| | |exact W]; cbn [fst snd andb].
  - destruct W as (R1 & M1 & Nx & l' & H1 & P). cbn in P. subst l'.
    destruct (Nat.eqb_spec (List.hd hd l2) hd) as [E|E]; cbn [negb].
    + unfold ret. destruct l2 as [|y l2]; [rewrite app_nil_r in H1; auto|]. cbn in E. subst y. exfalso.
      assert (N := nodup_this dv St_ R H0). inversion N as [|? ? N1 _]; subst. apply N1, in_or_app. right. now left.
    + destruct H1 as (ls1 & Sq1 & Nt1).
      assert (Sp : sstep hd (SRelocate (List.hd hd l2) x) ((l1 ++ l2) ++ [x], []) (l1 ++ x :: l2, [])).
      { apply (st_relocate hd (l1 ++ l2) x []). now rewrite app_nil_r. }
      assert (W2 := move_effect R1 Sq1 Nt1 Sp eq_refl). cbn [exec_sop] in W2. unfold s_relocate in W2.
      destruct (Nat.eqb_spec (List.hd hd l2) x) as [Ex|_].
      { exfalso. destruct l2 as [|y l2]; [easy|]. cbn in Ex. subst y.
        assert (N := nodup_this dv St_ R1 (ex_intro _ ls1 (conj Sq1 Nt1))). inversion N as [|? ? _ N1]; subst.
        apply NoDup_app_iff in N1 as (_ & _ & N1). apply (N1 x); [|now left]. apply in_or_app. right. now left. }
      destruct (own (relink (List.hd hd l2) x) s1) as [u s2|s2|]; [|easy|easy].
      destruct W2 as (R2 & M2 & _ & _ & H2). unfold ret. splits; auto. now rewrite M2.
  - destruct W as (R1 & M1 & Ix & Cf & l' & H1 & P). cbn in P. subst l'. cbn. auto 6.
  - destruct W as (R1 & M1 & B & l' & H1 & P). cbn in P. subst l'. auto.
Qed.
Theorem C29_box_push_front s lk nh l v : reachable s lk nh -> holds s l ->
  match push_front v s with
  | Ret (x, true) s' => holds s' (x :: l) /\ memory s' = (x, Some v) :: memory s /\ ~ In x (map fst (memory s)) /\
      reachable s' (x :: lk) nh
  | Ret (x, false) s' => holds s' l /\ memory s' = memory s /\ In x lk /\ conflict all v (value_of s x) /\ reachable s' lk nh
  | Exn s' => holds s' l /\ memory s' = memory s /\ blown throws (calls s) (calls s') /\ reachable s' lk nh
  | UB => False
  end.
Proof. intros R H. unfold push_front, bind. rewrite (C29_box_begin R H). exact (C29_box_insert [] l v R H). Qed.
Theorem C29_box_push_back s lk nh l v : reachable s lk nh -> holds s l ->
  match push_back v s with
  | Ret (x, true) s' => holds s' (l ++ [x]) /\ memory s' = (x, Some v) :: memory s /\ ~ In x (map fst (memory s)) /\
      reachable s' (x :: lk) nh
  | Ret (x, false) s' => holds s' l /\ memory s' = memory s /\ In x lk /\ conflict all v (value_of s x) /\ reachable s' lk nh
  | Exn s' => holds s' l /\ memory s' = memory s /\ blown throws (calls s) (calls s') /\ reachable s' lk nh
  | UB => False
  end.
Proof.
  intros R H. rewrite <- (app_nil_r l) in H. assert (W := C29_box_insert l [] v R H). rewrite app_nil_r in W. exact W.
Qed.
(** insertion of several values; after an exception those accepted before it are in their place *)
Theorem C29_box_insert_all vs : forall s lk nh l1 l2, reachable s lk nh -> holds s (l1 ++ l2) ->
  let res s' part := exists xs, holds s' (l1 ++ xs ++ l2) /\ reachable s' (rev xs ++ lk) nh /\
    accepted (map (value_of s) lk) part (map (value_of s') xs) /\ forall y, In y lk -> value_of s' y = value_of s y in
  match insert_all (List.hd hd l2) vs s with
  | Ret _ s' => res s' vs
  | Exn s' => exists vs1 v vs2, vs = vs1 ++ v :: vs2 /\ res s' vs1
  | UB => False
  end.
Proof.
  induction vs as [|v vs IH]; intros s lk nh l1 l2 R H res; cbn [insert_all].
  - exists []. cbn. splits; auto. constructor.
  - unfold bind. assert (W := C29_box_insert l1 l2 v R H). destruct (insert_at (List.hd hd l2) v s) as [(x, [|]) s1|s1|]; [| | |exact W].
    + destruct W as (H1 & M1 & Nx & R1). destruct (fresh_value s1 M1 Nx R) as (Vx & Vy).
      assert (H1' : holds s1 ((l1 ++ [x]) ++ l2)) by (rewrite <- app_assoc; exact H1).
      assert (E : map (value_of s1) (x :: lk) = v :: map (value_of s) lk).
      { cbn. f_equal; auto. apply map_ext_in. exact Vy. }
      assert (W := IH s1 (x :: lk) nh (l1 ++ [x]) l2 R1 H1'). cbv zeta in W. rewrite E in W.
      assert (K : forall s' part, (exists xs, holds s' ((l1 ++ [x]) ++ xs ++ l2) /\ reachable s' (rev xs ++ x :: lk) nh /\
        accepted (v :: map (value_of s) lk) part (map (value_of s') xs) /\ forall y, In y (x :: lk) -> value_of s' y = value_of s1 y) ->
        res s' (v :: part)).
      { intros s' part (xs & H' & R' & Ac & Vl). exists (x :: xs). cbn [app rev map]. rewrite <- app_assoc in H'. rewrite <- app_assoc. splits; auto.
        - rewrite (Vl x) by now left. rewrite Vx. constructor; auto. intros w Iw. apply in_map_iff in Iw as (y & <- & Iy).
          rewrite <- Vx at 1. rewrite <- Vy by auto. refine (C04_unique dv St_ R1 _ _ _); [now left|now right|]. intros <-. apply Nx.
          destruct (C03_consistent dv St_ R) as (ls' & Sn). eapply Permutation_in; [symmetry; apply (sn_mem Sn)|]. right. apply in_or_app. auto.
        - intros y Iy. rewrite Vl by now right. auto. }
      destruct (insert_all (List.hd hd l2) vs s1) as [u s'|s'|]; [| |exact W].
      * now apply K.
      * destruct W as (vs1 & w & vs2 & -> & W). exists (v :: vs1), w, vs2. split; auto.
    + destruct W as (H1 & M1 & Ix & Cf & R1).
      assert (Vy : forall y, value_of s1 y = value_of s y) by (intros y; now apply same_value).
      assert (W := IH s1 lk nh l1 l2 R1 H1). cbv zeta in W. rewrite (map_ext _ _ Vy) in W.
      assert (K : forall s' part, (exists xs, holds s' (l1 ++ xs ++ l2) /\ reachable s' (rev xs ++ lk) nh /\
        accepted (map (value_of s) lk) part (map (value_of s') xs) /\ forall y, In y lk -> value_of s' y = value_of s1 y) ->
        res s' (v :: part)).
      { intros s' part (xs & H' & R' & Ac & Vl). exists xs. splits; auto.
        - apply acc_skip with (w := value_of s x); auto. now apply in_map.
        - intros y Iy. rewrite Vl by auto. auto. }
      destruct (insert_all (List.hd hd l2) vs s1) as [u s'|s'|]; [| |exact W].
      * now apply K.
      * destruct W as (vs1 & w & vs2 & -> & W). exists (v :: vs1), w, vs2. split; auto.
    + destruct W as (H1 & M1 & _ & R1). exists [], v, vs. split; auto. exists []. cbn. splits; auto; [constructor|].
      intros y _. now apply same_value.
Qed.

(** assign *)
Lemma append_all vs s : append vs s = insert_all hd vs s.
Proof.
  revert s. induction vs as [|v vs IH]; intros s; cbn [append insert_all]; auto. unfold insert_at, bind.
  destruct (c_insert box v None s) as [(x, b) s1|s1|]; auto. cbn [fst snd]. rewrite Nat.eqb_refl, Bool.andb_false_r. unfold ret. apply IH.
Qed.
Theorem C29_box_assign s lk nh l vs : reachable s lk nh -> holds s l ->
  let res s' part := exists xs, holds s' xs /\ reachable s' (rev xs) nh /\ accepted [] part (map (value_of s') xs) in
  match assign vs s with
  | Ret _ s' => res s' vs
  | Exn s' => exists vs1 v vs2, vs = vs1 ++ v :: vs2 /\ res s' vs1
  | UB => False
  end.
Proof.
  intros R (ls & Sq & Nt) res. unfold assign, bind. assert (W := C50_clear dv St_ R Sq). destruct (c_clear box s) as [u s1|s1|] eqn:E; try easy.
  destruct W as (_ & _ & Sq1 & _). rewrite append_all.
  assert (R1 : reachable s1 [] nh).
  { refine (@reach_ret V throws pick hd box _ (@run_index V throws pick hd all) (@can_index V throws pick hd all) _ s lk nh (Clear _ _) Nothing s1 R I _).
    cbn [exec]. unfold bind. now rewrite E. }
  assert (H1 : holds s1 ([] ++ [])).
  { eexists. split; [exact Sq1|]. erewrite map_nth_error; [reflexivity|apply this_at]. }
  assert (K : forall s' part, (exists xs, holds s' ([] ++ xs ++ []) /\ reachable s' (rev xs ++ []) nh /\
    accepted (map (value_of s1) []) part (map (value_of s') xs) /\ forall y, In y [] -> value_of s' y = value_of s1 y) -> res s' part).
  { intros s' part (xs & H' & R' & Ac & _). exists xs. cbn [app map] in *. rewrite !app_nil_r in *. auto. }
  assert (W := C29_box_insert_all vs [] [] R1 H1). cbv zeta in W. cbn [List.hd] in W. destruct (insert_all hd vs s1) as [u' s'|s'|]; [| |exact W].
  - now apply K.
  - destruct W as (vs1 & v & vs2 & -> & W). exists vs1, v, vs2. auto.
Qed.

(** ** elements leaving *)
Lemma er_refl s lk nh ls n : reachable s lk nh -> sequences s = Some ls -> quiet throws (calls s) n \/ blown throws (calls s) n ->
  erased_all s (adv box n s) nh ls [].
Proof.
  intros R Sq Q. destruct (adv_before dv cs1 cs2 this St_ R Sq Q) as (R' & M & _ & Sq'). unfold KeyedProps.erased_all. splits; eauto.
  - rewrite Sq'. f_equal. symmetry. erewrite map_ext; [apply map_id|]. exact drop_nil.
  - easy.
  - intros x _. now rewrite M.
Qed.
Lemma er_gone s s' nh lk' ls m : reachable s' lk' nh -> gone s s' ls m -> erased_all s s' nh ls m.
Proof. intros R (A & B & C & _). unfold KeyedProps.erased_all. splits; eauto. Qed.
Lemma er_trans s s1 s' nh ls a b : erased_all s s1 nh ls a -> erased_all s1 s' nh (map (drop a) ls) b -> erased_all s s' nh ls (a ++ b).
Proof.
  intros (_ & A3 & A1 & A2) (R & B3 & B1 & B2). unfold KeyedProps.erased_all. splits; auto.
  - rewrite B3, map_map. f_equal. apply map_ext. intros l. apply drop_drop.
  - intros x I. destruct (in_dec Nat.eq_dec x b) as [J|J]; [auto|]. rewrite B2 by auto. apply in_app_iff in I as [I|I]; [auto|easy].
  - intros x N. rewrite in_app_iff in N. rewrite B2, A2; auto.
Qed.
Lemma er_ext s s' nh ls a b : (forall x, In x a <-> In x b) -> erased_all s s' nh ls a -> erased_all s s' nh ls b.
Proof.
  intros H (R & A3 & A1 & A2). unfold KeyedProps.erased_all. splits; auto.
  - rewrite A3. f_equal. apply map_ext. intros l. exact (drop_ext _ _ l H).
  - intros x I. now apply A1, H.
  - intros x N. apply A2. now rewrite H.
Qed.
Lemma er_holds s s' nh ls l m : erased_all s s' nh ls m -> nth_error ls (length cs1) = Some l -> holds s' (drop m l).
Proof. intros (_ & E & _) Nt. eexists. split; [exact E|]. erewrite map_nth_error; [|exact Nt]. reflexivity. Qed.
Lemma er_value s s' nh ls m x : erased_all s s' nh ls m -> ~ In x m -> value_of s' x = value_of s x.
Proof. intros (_ & _ & _ & A) N. unfold Client.value_of, val. apply A in N. unfold Client.memory in N. now rewrite N. Qed.

Theorem C29_box_pop_front s lk nh ls x l : reachable s lk nh -> sequences s = Some ls -> nth_error ls (length cs1) = Some (x :: l) ->
  match pop_front s with
  | Ret _ s' => holds s' l /\ calls s' = calls s /\ erased_all s s' nh ls [x]
  | _ => False
  end.
Proof.
  intros R Sq Nt. assert (H : holds s (x :: l)) by (exists ls; auto). unfold pop_front, bind. rewrite (C29_box_begin R H). cbn [List.hd].
  assert (W := erase_at_ok dv cs1 cs2 this St_ [] x l R Sq Nt). destruct (erase_at x s) as [y s'|s'|]; auto.
  destruct W as (_ & R' & G & H'). unfold ret. splits; auto; [apply G|]. eapply er_gone; eauto.
Qed.
Theorem C29_box_pop_back s lk nh ls x l : reachable s lk nh -> sequences s = Some ls -> nth_error ls (length cs1) = Some (l ++ [x]) ->
  match pop_back s with
  | Ret _ s' => holds s' l /\ calls s' = calls s /\ erased_all s s' nh ls [x]
  | _ => False
  end.
Proof.
  intros R Sq Nt. assert (H : holds s (l ++ [x])) by (exists ls; auto). unfold pop_back, bind. assert (P := C29_box_prior l x [] R H). cbn [List.hd] in P. rewrite P.
  assert (W := erase_at_ok dv cs1 cs2 this St_ l x [] R Sq Nt). destruct (erase_at x s) as [y s'|s'|]; auto.
  destruct W as (_ & R' & G & H'). rewrite app_nil_r in H'. unfold ret. splits; auto; [apply G|]. eapply er_gone; eauto.
Qed.
Lemma pops_ok d : forall s lk nh ls k, reachable s lk nh -> sequences s = Some ls -> nth_error ls (length cs1) = Some (k ++ d) ->
  match pops (length d) s with
  | Ret _ s' => holds s' k /\ calls s' = calls s /\ erased_all s s' nh ls d
  | _ => False
  end.
Proof.
  induction d as [|x d IH] using rev_ind; intros s lk nh ls k R Sq Nt.
  - rewrite app_nil_r in Nt. cbn. splits; auto; [exists ls; auto|].
    assert (E := er_refl R Sq (or_introl (quiet_refl throws (calls s)))). now rewrite (adv_calls_id throws dv cs1 cs2 this St_) in E.
  - rewrite app_length, Nat.add_comm. cbn [length Nat.add pops]. rewrite app_assoc in Nt. unfold bind at 1.
    assert (W := C29_box_pop_back x (k ++ d) R Sq Nt). destruct (pop_back s) as [u s1|s1|]; auto. destruct W as ((ls1 & Sq1 & Nt1) & C1 & E1).
    assert (E1' := E1). destruct E1' as ((lk1 & R1) & Sq1' & _). assert (ls1 = map (drop [x]) ls) by (rewrite Sq1 in Sq1'; now injection Sq1'). subst ls1.
    assert (W := IH s1 _ nh _ k R1 Sq1 Nt1). destruct (pops (length d) s1) as [u2 s'|s'|]; auto.
    destruct W as (H' & C' & E'). splits; auto; [congruence|]. eapply er_ext; [|eapply er_trans; eauto].
    intros y. rewrite !in_app_iff. tauto.
Qed.
Theorem C29_box_resize s lk nh ls l n v : reachable s lk nh -> sequences s = Some ls -> nth_error ls (length cs1) = Some l ->
  match resize n v s with
  | Ret _ s' =>
      (n <= length l -> holds s' (firstn n l) /\ erased_all s s' nh ls (skipn n l)) /\
      (length l < n -> exists xs, holds s' (l ++ xs) /\ reachable s' (rev xs ++ lk) nh /\
         accepted (map (value_of s) lk) (repeat v (n - length l)) (map (value_of s') xs))
  | Exn s' => length l < n /\ exists xs m, holds s' (l ++ xs) /\ reachable s' (rev xs ++ lk) nh /\
         m < n - length l /\ accepted (map (value_of s) lk) (repeat v m) (map (value_of s') xs)
  | UB => False
  end.
Proof.
  intros R Sq Nt. assert (H : holds s l) by (exists ls; auto). destruct (C29_box_links R H) as (_ & C).
  unfold resize, bind, size. change (cget box s) with (count s). rewrite C.
  destruct (Nat.ltb_spec (length l) n) as [Lt|Ge].
  - assert (H1 : holds s (l ++ [])) by now rewrite app_nil_r.
    assert (W := C29_box_insert_all (repeat v (n - length l)) l [] R H1). cbv zeta in W. cbn [List.hd] in W.
    destruct (insert_all hd _ s) as [u s'|s'|]; [| |exact W].
    + split; [lia|]. intros _. destruct W as (xs & H' & R' & Ac & _). rewrite app_nil_r in H'. eauto.
    + split; auto. destruct W as (vs1 & w & vs2 & E & xs & H' & R' & Ac & _). rewrite app_nil_r in H'. exists xs, (length vs1).
      assert (E1 : vs1 = repeat v (length vs1)).
      { apply Forall_eq_repeat. apply Forall_forall. intros y Iy. symmetry. apply (repeat_spec (n - length l) v). rewrite E. apply in_or_app. auto. }
      assert (E2 := f_equal (@length V) E). rewrite repeat_length, app_length in E2. cbn in E2. splits; auto; [lia|]. now rewrite <- E1.
  - assert (K : forall s', holds s' (firstn n l) /\ erased_all s s' nh ls (skipn n l) ->
      (n <= length l -> holds s' (firstn n l) /\ erased_all s s' nh ls (skipn n l)) /\
      (length l < n -> exists xs, holds s' (l ++ xs) /\ reachable s' (rev xs ++ lk) nh /\
         accepted (map (value_of s) lk) (repeat v (n - length l)) (map (value_of s') xs))) by (intros s' X; split; [auto|lia]).
    assert (Ln : length (skipn n l) = length l - n) by apply skipn_length.
    assert (W := pops_ok (skipn n l) (firstn n l) R Sq). rewrite firstn_skipn, Ln in W. specialize (W Nt).
    destruct (Nat.ltb_spec n (length l)) as [Lt|Ge2].
    + destruct (pops (length l - n) s) as [u s'|s'|]; try easy. apply K. tauto.
    + replace (length l - n) with 0 in W by lia. cbn in W. unfold ret. apply K. tauto.
Qed.

(** ** moves: C29, C34, C36 *)
Definition moved_to (r : out (St box) unit) s lk nh ls (l' : list node) : Prop :=
  match r with
  | Ret _ s' => memory s' = memory s /\ calls s' = calls s /\ sequences s' = Some (set_nth (length cs1) l' ls) /\ reachable s' lk nh
  | _ => False
  end.
Lemma move_to s lk nh ls l l' o : reachable s lk nh -> sequences s = Some ls -> nth_error ls (length cs1) = Some l ->
  sstep hd o (l, []) (l', []) -> RndMove.moving o = true -> moved_to (own (exec_sop (count s + 1) hd o) s) s lk nh ls l'.
Proof. intros R Sq Nt Sp Mv. assert (W := move_effect R Sq Nt Sp Mv). unfold moved_to. destruct (own _ s); auto. tauto. Qed.
Theorem C29_box_relocate s lk nh ls a i b l1 l2 : reachable s lk nh -> sequences s = Some ls ->
  nth_error ls (length cs1) = Some (a ++ i :: b) -> a ++ b = l1 ++ l2 ->
  moved_to (own (s_relocate (List.hd hd l2) i) s) s lk nh ls (l1 ++ i :: l2).
Proof. intros R Sq Nt E. exact (move_to R Sq Nt (st_relocate hd a i b l1 l2 [] E) eq_refl). Qed.
Theorem C29_box_relocate_self s i : own (s_relocate i i) s = Ret tt s.
Proof. apply own_ro. unfold s_relocate. now rewrite Nat.eqb_refl. Qed.
Theorem C29_box_relocate_range s lk nh ls a seg b l1 l2 : reachable s lk nh -> sequences s = Some ls ->
  nth_error ls (length cs1) = Some (a ++ seg ++ b) -> a ++ b = l1 ++ l2 ->
  moved_to (own (s_relocate_range (List.hd hd l2) (List.hd hd (seg ++ b)) (List.hd hd b)) s) s lk nh ls (l1 ++ seg ++ l2).
Proof. intros R Sq Nt E. exact (move_to R Sq Nt (st_relocate_range hd a seg b l1 l2 [] E) eq_refl). Qed.
Theorem C36_box_rearrange s lk nh ls l view : reachable s lk nh -> sequences s = Some ls ->
  nth_error ls (length cs1) = Some l -> Permutation l view -> moved_to (own (s_rearrange hd view) s) s lk nh ls view.
Proof. intros R Sq Nt E. exact (move_to R Sq Nt (st_rearrange hd _ view [] E) eq_refl). Qed.
Theorem C34_box_reverse s lk nh ls l : reachable s lk nh -> sequences s = Some ls ->
  nth_error ls (length cs1) = Some l -> moved_to (own (reverse (count s + 1) hd) s) s lk nh ls (rev l).
Proof. intros R Sq Nt. exact (move_to R Sq Nt (st_reverse hd l []) eq_refl). Qed.
(** [range] are the elements met by iterating over another index, position is not among them *)
Theorem C29_box_splice s lk nh ls l1 l2 range : reachable s lk nh -> sequences s = Some ls ->
  nth_error ls (length cs1) = Some (l1 ++ l2) -> NoDup range -> incl range (l1 ++ l2) -> ~ In (List.hd hd l2) range ->
  moved_to (own (s_internal_splice (List.hd hd l2) range) s) s lk nh ls (drop range l1 ++ range ++ drop range l2).
Proof.
  intros R Sq Nt ND Inc Np. assert (H : holds s (l1 ++ l2)) by (exists ls; auto).
  assert (N0 := nodup_this dv St_ R H). inversion N0 as [|? ? Nh N1]; subst.
  assert (Pd : forall l, NoDup l -> Permutation l (filter (fun x => existsb (Nat.eqb x) range) l ++ drop range l)).
  { intros l _. unfold drop. induction l as [|x l IH]; cbn; auto. destruct (existsb (Nat.eqb x) range); cbn.
    - now constructor.
    - rewrite IH at 1. perm. }
  assert (Pr : Permutation (filter (fun x => existsb (Nat.eqb x) range) (l1 ++ l2)) range).
  { apply NoDup_Permutation; auto; [now apply NoDup_filter|]. intros x. rewrite filter_In, existsb_exists. split.
    - intros (_ & y & Iy & E). apply Nat.eqb_eq in E. now subst.
    - intros I. split; [now apply Inc|]. exists x. split; auto. apply Nat.eqb_refl. }
  assert (Hp : List.hd hd (drop range l2) = List.hd hd l2).
  { destruct l2 as [|y l2]; auto. cbn in *. destruct (existsb (Nat.eqb y) range) eqn:E; auto. exfalso.
    apply existsb_exists in E as (z & Iz & E). apply Nat.eqb_eq in E. subst z. auto. }
  assert (Sp : sstep hd (SSplice (List.hd hd (drop range l2)) range) (l1 ++ l2, []) (drop range l1 ++ range ++ drop range l2, [])).
  { apply st_splice.
    - rewrite (Pd _ N1) at 1. rewrite Pr, drop_app. perm.
    - change (drop range (l1 ++ l2) = drop range l1 ++ drop range l2). apply drop_app. }
  rewrite Hp in Sp. exact (move_to R Sq Nt Sp eq_refl).
Qed.

(** ** C30; the temporary lists are at addresses of their own, and size_t is wide enough *)
Theorem C30_box_sort lt digits carry cnt s lk nh ls l : reachable s lk nh -> sequences s = Some ls ->
  nth_error ls (length cs1) = Some l -> NoDup (hd :: l ++ tmps digits carry cnt) -> length l < 2 ^ digits ->
  let res s' := memory s' = memory s /\ reachable s' lk nh /\
      exists l', Permutation l l' /\ sequences s' = Some (set_nth (length cs1) l' ls) in
  match op_index (SortSeq lt digits carry cnt) s with
  | Ret _ s' => quiet throws (calls s) (calls s') /\ res s' /\
      (strict_weak_order lt -> exists l', holds s' l' /\ StronglySorted (fun x y => lt (value_of s y) (value_of s x) = false) l')
  | Exn s' => res s'
  | UB => False
  end.
Proof.
  intros R Sq Nt Nd Le res. assert (W := index_effect dv cs1 cs2 this St_ (SortSeq lt digits carry cnt) R Sq Nt (conj Nd Le)).
  unfold op_index. destruct (run_index _ _ _ _ _ s) as [u s'|s'|]; auto.
  - destruct W as (R' & M & _ & Q & l' & (P & Srt) & Sq' & H'). unfold res. splits; eauto.
  - destruct W as (R' & M & _ & l' & P & Sq' & _). unfold res. splits; eauto.
Qed.

(** ** C34 *)
Lemma adv_call s : adv box (S (calls s)) s = bset box (mkB (mem (bget box s)) (S (tk (bget box s)))) s.
Proof. reflexivity. Qed.
Lemma one_call s : if throws (calls s) then blown throws (calls s) (S (calls s)) else quiet throws (calls s) (S (calls s)).
Proof.
  destruct (throws (calls s)) eqn:T.
  - exists (calls s). splits; auto. apply quiet_refl.
  - split; [lia|]. intros i Hi. now replace i with (calls s) by lia.
Qed.
Lemma read_value s lk nh l x : reachable s lk nh -> holds s l -> In x l -> basM box (value x) s = Ret (value_of s x) s.
Proof.
  intros R H Ix. destruct (open_at dv St_ R H) as (_ & _ & _ & _ & Lv & _). destruct (Lv x Ix) as (v & E).
  unfold basM, lensM, value, Client.value_of, val. rewrite E. f_equal. apply (o_gs O).
Qed.
Lemma test_ok pred s lk nh l x : reachable s lk nh -> holds s l -> In x l ->
  test pred x s = if throws (calls s) then Exn (adv box (S (calls s)) s) else Ret (pred (value_of s x)) (adv box (S (calls s)) s).
Proof.
  intros R H Ix. unfold test, bind. rewrite (read_value x R H Ix). unfold basM, lensM, tick. fold (calls s). change (tk (bget box s)) with (calls s).
  destruct (throws (calls s)); reflexivity.
Qed.
Lemma test2_ok pred s lk nh l x y : reachable s lk nh -> holds s l -> In x l -> In y l ->
  test2 pred x y s = if throws (calls s) then Exn (adv box (S (calls s)) s) else Ret (pred (value_of s x) (value_of s y)) (adv box (S (calls s)) s).
Proof.
  intros R H Ix Iy. unfold test2, bind. rewrite (read_value x R H Ix), (read_value y R H Iy). unfold basM, lensM, tick. change (tk (bget box s)) with (calls s).
  destruct (throws (calls s)); reflexivity.
Qed.

Lemma quiet_step n m : throws n = false -> quiet throws (S n) m -> quiet throws n m.
Proof. intros T (Le & Q). split; [lia|]. intros i Hi. destruct (Nat.eq_dec i n) as [->|]; auto. apply Q. lia. Qed.
Lemma blown_step n m : throws n = false -> blown throws (S n) m -> blown throws n m.
Proof. intros T (i & -> & Q & Ti). exists i. splits; auto. now apply quiet_step. Qed.
Lemma er_this s s1 nh ls l l' m : erased_all s s1 nh ls m -> nth_error ls (length cs1) = Some l -> holds s1 l' ->
  nth_error (map (drop m) ls) (length cs1) = Some l' /\ drop m l = l'.
Proof.
  intros E Nt H. assert (H2 := er_holds E Nt). assert (drop m l = l') by (eapply holds_fun; eauto). split; auto.
  erewrite map_nth_error; [|exact Nt]. now f_equal.
Qed.
(** the loop from an element on, the rest being [rest] *)
Lemma remove_loop_ok pred rest : forall fuel s lk nh ls a, reachable s lk nh -> sequences s = Some ls ->
  nth_error ls (length cs1) = Some (a ++ rest) -> length rest <= fuel ->
  let out x := pred (value_of s x) in
  match remove_loop fuel pred (List.hd hd rest) hd s with
  | Ret _ s' => calls s' = calls s + length rest /\ quiet throws (calls s) (calls s') /\ erased_all s s' nh ls (filter out rest)
  | Exn s' => exists r1 r2, rest = r1 ++ r2 /\ calls s' = S (calls s + length r1) /\ blown throws (calls s) (calls s') /\
      erased_all s s' nh ls (filter out r1)
  | UB => False
  end.
Proof.
  induction rest as [|x rest IH]; intros fuel s lk nh ls a R Sq Nt Fu out.
  - destruct fuel; cbn [List.hd remove_loop]; rewrite Nat.eqb_refl; unfold ret; cbn; splits; auto; try apply quiet_refl;
      assert (E := er_refl R Sq (or_introl (quiet_refl throws (calls s)))); now rewrite (adv_calls_id throws dv cs1 cs2 this St_) in E.
  - destruct fuel as [|fuel]; [cbn in Fu; lia|]. cbn [List.hd remove_loop].
    assert (H : holds s (a ++ x :: rest)) by (exists ls; auto). assert (ND := nodup_this dv St_ R H).
    destruct (Nat.eqb_spec x hd) as [->|_].
    { exfalso. apply NoDup_cons_iff in ND as (ND & _). apply ND, in_or_app. right. now left. }
    assert (Ix : In x (a ++ x :: rest)) by (apply in_or_app; right; now left).
    unfold bind at 1. rewrite (test_ok pred x R H Ix). assert (C1 := one_call s). set (s1 := adv box (S (calls s)) s) in *.
    assert (Cs1 : calls s1 = S (calls s)) by exact (adv_calls throws dv cs1 cs2 this St_ s (S (calls s))).
    destruct (throws (calls s)) eqn:T.
    + exists [], (x :: rest). rewrite Cs1. splits; auto. exact (er_refl R Sq (or_intror C1)).
    + assert (R1 : reachable s1 lk nh) by exact (reach_quiet dv cs1 cs2 this St_ R C1).
      assert (Sq1 : sequences s1 = Some ls) by exact (adv_seq dv cs1 cs2 this St_ _ R Sq).
      assert (E1 : erased_all s s1 nh ls []) by exact (er_refl R Sq (or_introl C1)).
      assert (V1 : forall y, value_of s1 y = value_of s y) by (intros y; apply (er_value y E1); auto).
      assert (H1 : holds s1 (a ++ x :: rest)) by (exists ls; auto).
      assert (D0 : map (drop []) ls = ls) by (erewrite map_ext; [apply map_id|exact drop_nil]).
      change (pred (value_of s x)) with (out x). destruct (out x) eqn:Ox; unfold bind at 1; rewrite (next_ok dv St_ a x rest R1 H1).
      * unfold bind at 1. assert (W := erase_at_ok dv cs1 cs2 this St_ a x rest R1 Sq1 Nt). destruct (erase_at x s1) as [y0 s2|s2|]; try easy.
        destruct W as (_ & R2 & G & H2). assert (E2 := er_gone R2 G). destruct (er_this E2 Nt H2) as (Nt2 & _).
        assert (Sq2 : sequences s2 = Some (map (drop [x]) ls)) by apply E2.
        assert (C2 : calls s2 = S (calls s)) by (rewrite <- Cs1; apply G).
        assert (W := IH fuel s2 _ nh _ a R2 Sq2 Nt2 ltac:(cbn in Fu; lia)). cbv zeta in W. rewrite C2 in W.
        assert (K : forall r, incl r rest -> filter (fun y => pred (value_of s2 y)) r = filter out r).
        { intros r Ir. apply filter_ext_in. intros y Iy. unfold out. rewrite (er_value y E2), V1; auto. intros [->|[]].
          apply NoDup_cons_iff in ND as (_ & ND). apply NoDup_app_iff in ND as (_ & ND & _). apply NoDup_cons_iff in ND as (ND & _). auto. }
        assert (K2 : forall s' r, incl r rest -> erased_all s2 s' nh (map (drop [x]) ls) (filter (fun y => pred (value_of s2 y)) r) ->
          erased_all s s' nh ls (filter out (x :: r))).
        { intros s' r Ir E'. rewrite K in E' by auto. cbn [filter]. rewrite Ox. change (x :: filter out r) with ([] ++ [x] ++ filter out r).
          eapply er_trans; [exact E1|]. rewrite D0. eapply er_trans; eauto. }
        destruct (remove_loop fuel pred _ hd s2) as [u s'|s'|]; auto.
        -- destruct W as (C' & Q' & E'). splits; [cbn; lia|now apply quiet_step|]. apply K2; auto. apply incl_refl.
        -- destruct W as (r1 & r2 & -> & C' & Q' & E'). exists (x :: r1), r2. splits; auto; [cbn; lia|now apply blown_step|].
           apply K2; auto. apply incl_appl, incl_refl.
      * assert (Nt2 : nth_error ls (length cs1) = Some ((a ++ [x]) ++ rest)) by (rewrite <- app_assoc; exact Nt).
        assert (W := IH fuel s1 _ nh _ (a ++ [x]) R1 Sq1 Nt2 ltac:(cbn in Fu; lia)). cbv zeta in W. rewrite Cs1 in W.
        assert (K2 : forall s' r, erased_all s1 s' nh ls (filter (fun y => pred (value_of s1 y)) r) -> erased_all s s' nh ls (filter out (x :: r))).
        { intros s' r E'. cbn [filter]. rewrite Ox. change (filter out r) with ([] ++ filter out r). eapply er_trans; [exact E1|]. rewrite D0.
          erewrite filter_ext; [exact E'|]. intros y. unfold out. now rewrite V1. }
        destruct (remove_loop fuel pred _ hd s1) as [u s'|s'|]; auto.
        -- destruct W as (C' & Q' & E'). splits; [cbn; lia|now apply quiet_step|]. now apply K2.
        -- destruct W as (r1 & r2 & -> & C' & Q' & E'). exists (x :: r1), r2. splits; auto; [cbn; lia|now apply blown_step].
Qed.
Lemma drop_filter (f : node -> bool) l : drop (filter f l) l = filter (fun x => negb (f x)) l.
Proof.
  unfold drop. apply filter_ext_in. intros x Ix. f_equal. destruct (f x) eqn:F.
  - apply existsb_exists. exists x. split; [now apply filter_In|apply Nat.eqb_refl].
  - destruct (existsb _ _) eqn:E; auto. apply existsb_exists in E as (y & Iy & E). apply Nat.eqb_eq in E. subst y.
    apply filter_In in Iy as (_ & Iy). congruence.
Qed.
(** remove_if, and remove with the predicate "equal to": one call for each element; after an exception the
    elements before the one being looked at have been treated *)
Theorem C34_box_remove_if pred s lk nh ls l : reachable s lk nh -> sequences s = Some ls -> nth_error ls (length cs1) = Some l ->
  let out x := pred (value_of s x) in
  match remove_if pred s with
  | Ret _ s' => calls s' = calls s + length l /\ quiet throws (calls s) (calls s') /\
      holds s' (filter (fun x => negb (out x)) l) /\ erased_all s s' nh ls (filter out l)
  | Exn s' => exists l1 l2, l = l1 ++ l2 /\ calls s' = S (calls s + length l1) /\ blown throws (calls s) (calls s') /\
      holds s' (filter (fun x => negb (out x)) l1 ++ l2) /\ erased_all s s' nh ls (filter out l1)
  | UB => False
  end.
Proof.
  intros R Sq Nt out. assert (H : holds s l) by (exists ls; auto). destruct (C29_box_links R H) as (_ & C).
  unfold remove_if. unfold bind at 1. unfold size. change (cget box s) with (count s). rewrite C. unfold bind. rewrite (C29_box_begin R H).
  assert (W := remove_loop_ok pred l [] R Sq Nt (le_n _)). cbv zeta in W. fold out in W.
  destruct (remove_loop (length l) pred _ hd s) as [u s'|s'|]; auto.
  - destruct W as (C' & Q & E). splits; auto. rewrite <- drop_filter. exact (er_holds E Nt).
  - destruct W as (r1 & r2 & -> & C' & Q & E). exists r1, r2. splits; auto.
    assert (H' := er_holds E Nt). rewrite drop_app in H'. rewrite <- drop_filter.
    rewrite (drop_none (filter out r1) r2) in H'; auto. intros x I J. apply filter_In in J as (J & _).
    assert (ND := nodup_this dv St_ R H). apply NoDup_cons_iff in ND as (_ & ND). apply NoDup_app_iff in ND as (_ & _ & ND). eapply ND; eauto.
Qed.

Lemma uniq_from_ext f g l : forall a, (forall x y, In x l -> In y (a :: l) -> f x y = g x y) -> uniq_from f a l = uniq_from g a l.
Proof.
  induction l as [|x l IH]; intros a E; cbn; auto. rewrite (E x a) by (cbn; auto). destruct (g x a).
  - apply IH. intros y z Iy Iz. apply E; [now right|]. destruct Iz; cbn; auto.
  - f_equal. apply IH. intros y z Iy Iz. apply E; [now right|]. now right.
Qed.
Lemma unique_loop_ok pred rest : forall fuel s lk nh ls a f, reachable s lk nh -> sequences s = Some ls ->
  nth_error ls (length cs1) = Some (a ++ f :: rest) -> length rest <= fuel ->
  let rel x y := pred (value_of s x) (value_of s y) in
  match unique_loop fuel pred f hd s with
  | Ret _ s' => calls s' = calls s + length rest /\ quiet throws (calls s) (calls s') /\
      exists m, Permutation rest (uniq_from rel f rest ++ m) /\ holds s' (a ++ f :: uniq_from rel f rest) /\ erased_all s s' nh ls m
  | Exn s' => exists r1 r2 m, rest = r1 ++ r2 /\ calls s' = S (calls s + length r1) /\ blown throws (calls s) (calls s') /\
      Permutation r1 (uniq_from rel f r1 ++ m) /\ holds s' (a ++ f :: uniq_from rel f r1 ++ r2) /\ erased_all s s' nh ls m
  | UB => False
  end.
Proof.
  induction rest as [|x rest IH]; intros fuel s lk nh ls a f R Sq Nt Fu rel.
  - assert (H : holds s (a ++ [f])) by (exists ls; auto).
    assert (E : unique_loop fuel pred f hd s = Ret tt s).
    { destruct fuel; cbn [unique_loop]; unfold bind; rewrite (next_ok dv St_ a f [] R H); cbn [List.hd]; now rewrite Nat.eqb_refl. }
    rewrite E. cbn. splits; auto; [apply quiet_refl|]. exists []. splits; auto.
    assert (E1 := er_refl R Sq (or_introl (quiet_refl throws (calls s)))). now rewrite (adv_calls_id throws dv cs1 cs2 this St_) in E1.
  - destruct fuel as [|fuel]; [cbn in Fu; lia|]. cbn [unique_loop].
    assert (H : holds s (a ++ f :: x :: rest)) by (exists ls; auto). assert (ND := nodup_this dv St_ R H).
    unfold bind at 1. rewrite (next_ok dv St_ a f (x :: rest) R H). cbn [List.hd].
    destruct (Nat.eqb_spec x hd) as [->|_].
    { exfalso. apply NoDup_cons_iff in ND as (ND & _). apply ND, in_or_app. right. right. now left. }
    assert (Ix : In x (a ++ f :: x :: rest)) by (apply in_or_app; right; right; now left).
    assert (If : In f (a ++ f :: x :: rest)) by (apply in_or_app; right; now left).
    apply NoDup_cons_iff in ND as (_ & ND). apply NoDup_app_iff in ND as (_ & ND & _). apply NoDup_cons_iff in ND as (Nf & ND). apply NoDup_cons_iff in ND as (Nx & _).
    unfold bind at 1. rewrite (test2_ok pred x f R H Ix If). assert (C1 := one_call s). set (s1 := adv box (S (calls s)) s) in *.
    assert (Cs1 : calls s1 = S (calls s)) by exact (adv_calls throws dv cs1 cs2 this St_ s (S (calls s))).
    destruct (throws (calls s)) eqn:T.
    + exists [], (x :: rest), []. rewrite Cs1. splits; auto.
      * cbn. exact (adv_holds dv St_ _ R H).
      * exact (er_refl R Sq (or_intror C1)).
    + assert (R1 : reachable s1 lk nh) by exact (reach_quiet dv cs1 cs2 this St_ R C1).
      assert (Sq1 : sequences s1 = Some ls) by exact (adv_seq dv cs1 cs2 this St_ _ R Sq).
      assert (E1 : erased_all s s1 nh ls []) by exact (er_refl R Sq (or_introl C1)).
      assert (V1 : forall y, value_of s1 y = value_of s y) by (intros y; apply (er_value y E1); auto).
      assert (H1 : holds s1 (a ++ f :: x :: rest)) by (exists ls; auto).
      assert (D0 : map (drop []) ls = ls) by (erewrite map_ext; [apply map_id|exact drop_nil]).
      change (pred (value_of s x) (value_of s f)) with (rel x f). cbn [uniq_from]. destruct (rel x f) eqn:Ox.
      * assert (Nt1 : nth_error ls (length cs1) = Some ((a ++ [f]) ++ x :: rest)) by (rewrite <- app_assoc; exact Nt).
        unfold bind at 1. assert (W := erase_at_ok dv cs1 cs2 this St_ (a ++ [f]) x rest R1 Sq1 Nt1). destruct (erase_at x s1) as [y0 s2|s2|]; try easy.
        destruct W as (_ & R2 & G & H2). rewrite <- app_assoc in H2. cbn [app] in H2.
        assert (E2 := er_gone R2 G). destruct (er_this E2 Nt H2) as (Nt2 & _).
        assert (Sq2 : sequences s2 = Some (map (drop [x]) ls)) by apply E2.
        assert (C2 : calls s2 = S (calls s)) by (rewrite <- Cs1; apply G).
        assert (W := IH fuel s2 _ nh _ a f R2 Sq2 Nt2 ltac:(cbn in Fu; lia)). cbv zeta in W. rewrite C2 in W.
        assert (V2 : forall y, In y (f :: rest) -> value_of s2 y = value_of s y).
        { intros y Iy. rewrite (er_value y E2), V1; auto. intros [->|[]]. destruct Iy as [->|Iy]; [|now apply Nx]. apply Nf. now left. }
        assert (K : forall r, incl r rest -> uniq_from (fun y z => pred (value_of s2 y) (value_of s2 z)) f r = uniq_from rel f r).
        { intros r Ir. apply uniq_from_ext. intros y z Iy Iz. unfold rel. rewrite !V2; auto; [|right; auto]. destruct Iz; [now left|right; auto]. }
        assert (K2 : forall s' m, erased_all s2 s' nh (map (drop [x]) ls) m -> erased_all s s' nh ls (x :: m)).
        { intros s' m E'. change (x :: m) with ([] ++ [x] ++ m). eapply er_trans; [exact E1|]. rewrite D0. eapply er_trans; eauto. }
        destruct (unique_loop fuel pred f hd s2) as [u s'|s'|]; auto.
        -- destruct W as (C' & Q' & m & P & H' & E'). rewrite K in * by apply incl_refl. splits; [cbn; lia|now apply quiet_step|].
           exists (x :: m). splits; auto. rewrite P at 1. perm.
        -- destruct W as (r1 & r2 & m & -> & C' & Q' & P & H' & E'). rewrite K in * by apply incl_appl, incl_refl.
           exists (x :: r1), r2, (x :: m). cbn [uniq_from]. rewrite Ox. splits; auto; [cbn; lia|now apply blown_step|]. rewrite P at 1. perm.
      * assert (Nt2 : nth_error ls (length cs1) = Some ((a ++ [f]) ++ x :: rest)) by (rewrite <- app_assoc; exact Nt).
        assert (W := IH fuel s1 _ nh _ (a ++ [f]) x R1 Sq1 Nt2 ltac:(cbn in Fu; lia)). cbv zeta in W. rewrite Cs1 in W.
        assert (K : forall r, uniq_from (fun y z => pred (value_of s1 y) (value_of s1 z)) x r = uniq_from rel x r).
        { intros r. apply uniq_from_ext. intros y z _ _. unfold rel. now rewrite !V1. }
        assert (K2 : forall s' m, erased_all s1 s' nh ls m -> erased_all s s' nh ls m).
        { intros s' m E'. change m with ([] ++ m). eapply er_trans; [exact E1|]. now rewrite D0. }
        destruct (unique_loop fuel pred x hd s1) as [u s'|s'|]; auto.
        -- destruct W as (C' & Q' & m & P & H' & E'). rewrite K in *. rewrite <- app_assoc in H'. splits; [cbn; lia|now apply quiet_step|].
           exists m. splits; auto. cbn. now constructor.
        -- destruct W as (r1 & r2 & m & -> & C' & Q' & P & H' & E'). rewrite K in *. rewrite <- app_assoc in H'.
           exists (x :: r1), r2, m. cbn [uniq_from]. rewrite Ox. splits; auto; [cbn; lia|now apply blown_step|]. cbn. now constructor.
Qed.
(** unique: an element is erased if [pred] of it and of the closest element before it which is not erased;
    one call for each element but the first.  [m] are the elements erased *)
Theorem C34_box_unique pred s lk nh ls l : reachable s lk nh -> sequences s = Some ls -> nth_error ls (length cs1) = Some l ->
  let kept := uniq (fun x y => pred (value_of s x) (value_of s y)) in
  match unique pred s with
  | Ret _ s' => calls s' = calls s + (length l - 1) /\ quiet throws (calls s) (calls s') /\
      exists m, Permutation l (kept l ++ m) /\ holds s' (kept l) /\ erased_all s s' nh ls m
  | Exn s' => exists l1 l2 m, l = l1 ++ l2 /\ l1 <> [] /\ calls s' = calls s + length l1 /\ blown throws (calls s) (calls s') /\
      Permutation l1 (kept l1 ++ m) /\ holds s' (kept l1 ++ l2) /\ erased_all s s' nh ls m
  | UB => False
  end.
Proof.
  intros R Sq Nt kept. assert (H : holds s l) by (exists ls; auto). destruct (C29_box_links R H) as (_ & C).
  unfold unique. unfold bind at 1. unfold size. change (cget box s) with (count s). rewrite C. unfold bind. rewrite (C29_box_begin R H).
  destruct l as [|f rest]; cbn [List.hd].
  - rewrite Nat.eqb_refl. unfold ret. cbn. splits; auto; [apply quiet_refl|]. exists []. splits; auto.
    assert (E1 := er_refl R Sq (or_introl (quiet_refl throws (calls s)))). now rewrite (adv_calls_id throws dv cs1 cs2 this St_) in E1.
  - destruct (Nat.eqb_spec f hd) as [->|_].
    { exfalso. assert (ND := nodup_this dv St_ R H). apply NoDup_cons_iff in ND as (ND & _). apply ND. now left. }
    assert (W := unique_loop_ok pred rest [] f R Sq Nt (le_S _ _ (le_n _))). cbv zeta in W. cbn [length] in *.
    destruct (unique_loop _ pred f hd s) as [u s'|s'|]; auto.
    + destruct W as (C' & Q & m & P & H' & E). splits; auto; [lia|]. exists m. splits; auto. cbn. now constructor.
    + destruct W as (r1 & r2 & m & -> & C' & Q & P & H' & E). exists (f :: r1), r2, m. splits; auto.
      * discriminate.
      * cbn. lia.
      * cbn. now constructor.
Qed.
End Props.

(** ** concrete cases: the second index of [some_state] is sequenced, [2;3;4;5] with values 6 8 5 7; the call
    to user code number 23 throws and 18 were made *)
Example some_hyp : reachable at23 next_node 1 (Focus.all [by_id true] [by_half; RandomAccess nat 0] (this nat 0 0)) some_state [5; 4; 3; 2] [] /\
  setting next_node 1 (Focus.all [by_id true] [by_half; RandomAccess nat 0] (this nat 0 0)) /\
  (exists ls, sequences at23 next_node 1 (Focus.all [by_id true] [by_half; RandomAccess nat 0] (this nat 0 0)) some_state = Some ls /\
     nth_error ls 1 = Some [2; 3; 4; 5]).
Proof.
  split; [exact some_reach|]. split; [exact four_ok|].
  eexists. split; [exact some_sequences|reflexivity].
Qed.
Notation some_op f := (f nat at23 next_node 1 [by_id true] [by_half; RandomAccess nat 0] 0 0).
Notation never := (fun _ : nat => false).
Notation late := (fun n : nat => n =? 35).
Notation op_at thr f := (f nat thr next_node 1 [by_id true] [by_half; RandomAccess nat 0] 0 0).
Definition four_at (thr : nat -> bool) : St (box thr next_node 1 four) :=
  fst (play thr next_node 1 four (map (fun v => Insert _ v None) [6; 8; 5; 7]) (start thr next_node 1 four 0) [] []).
Definition list_at (thr : nat -> bool) {A : Type} (o : out (St (box thr next_node 1 four)) A) : nat * option (list node) :=
  let at1 s := match sequences thr next_node 1 four s with Some ls => nth_error ls 1 | None => None end in
  match o with Ret _ s => (0, at1 s) | Exn s => (1, at1 s) | UB => (2, None) end.
Example some_inserts :
  @list_at never _ (op_at never insert_at 4 9 (four_at never)) = (0, Some [2; 3; 6; 4; 5]) /\
  @list_at never _ (op_at never push_front 9 (four_at never)) = (0, Some [6; 2; 3; 4; 5]) /\
  @list_at never _ (op_at never push_back 9 (four_at never)) = (0, Some [2; 3; 4; 5; 6]) /\
  @list_at never _ (op_at never insert_at 4 8 (four_at never)) = (0, Some [2; 3; 4; 5]) /\
  @list_at never _ (op_at never insert_all 4 [9; 6; 10] (four_at never)) = (0, Some [2; 3; 6; 7; 4; 5]) /\
  @list_at late _ (op_at late insert_all 4 [9; 6; 10] (four_at late)) = (1, Some [2; 3; 6; 4; 5]) /\
  @list_at never _ (op_at never assign [9; 9; 10] (four_at never)) = (0, Some [2; 3]) /\
  @list_at never _ (op_at never resize 7 9 (four_at never)) = (0, Some [2; 3; 4; 5; 6]) /\
  @list_at never _ (op_at never resize 1 9 (four_at never)) = (0, Some [2]).
Proof. vm_compute. auto 10. Qed.
Example some_erasures :
  seen (some_op pop_front some_state) = (0, Some [[4; 5; 3]; [3; 4; 5]; [4; 5; 3]; [3; 4; 5]]) /\
  seen (some_op pop_back some_state) = (0, Some [[4; 2; 3]; [2; 3; 4]; [4; 2; 3]; [2; 3; 4]]) /\
  seen (some_op remove_if (fun v => Nat.even v) some_state) = (0, Some [[4; 5]; [4; 5]; [4; 5]; [4; 5]]) /\
  seen (some_op unique (fun v w => Bool.eqb (Nat.even v) (Nat.even w)) some_state) = (0, Some [[4; 2]; [2; 4]; [4; 2]; [2; 4]]).
Proof. vm_compute. auto 10. Qed.
(** a call throws in the second round *)
Definition soon (k : nat) : nat -> bool := fun n => n =? k.
Example some_thrown :
  @list_at (soon 20) _ (op_at (soon 20) remove_if (fun v => Nat.even v) (four_at (soon 20))) = (1, Some [3; 4; 5]).
Proof. vm_compute. auto. Qed.
Example some_moves :
  @list_at at23 _ (some_op own (s_relocate 2 4) some_state) = (0, Some [4; 2; 3; 5]) /\
  @list_at at23 _ (some_op own (s_relocate_range 2 3 5) some_state) = (0, Some [3; 4; 2; 5]) /\
  @list_at at23 _ (some_op own (s_rearrange 1 [5; 3; 2; 4]) some_state) = (0, Some [5; 3; 2; 4]) /\
  @list_at at23 _ (some_op own (s_internal_splice 4 [5; 2]) some_state) = (0, Some [3; 5; 2; 4]) /\
  @list_at at23 _ (some_op own (reverse 5 1) some_state) = (0, Some [5; 4; 3; 2]) /\
  @list_at at23 _ (some_op op_index (SortSeq Nat.ltb 3 100 (fun i => 101 + i)) some_state) = (0, Some [4; 2; 5; 3]).
Proof. vm_compute. auto 20. Qed.

Print Assumptions C29_box_links.
Print Assumptions C29_box_begin.
Print Assumptions C29_box_next.
Print Assumptions C29_box_prior.
Print Assumptions C29_box_insert.
Print Assumptions C29_box_push_front.
Print Assumptions C29_box_push_back.
Print Assumptions C29_box_insert_all.
Print Assumptions C29_box_assign.
Print Assumptions C29_box_pop_front.
Print Assumptions C29_box_pop_back.
Print Assumptions C29_box_resize.
Print Assumptions C29_box_relocate.
Print Assumptions C29_box_relocate_self.
Print Assumptions C29_box_relocate_range.
Print Assumptions C36_box_rearrange.
Print Assumptions C34_box_reverse.
Print Assumptions C29_box_splice.
Print Assumptions C30_box_sort.
Print Assumptions C34_box_remove_if.
Print Assumptions C34_box_unique.
