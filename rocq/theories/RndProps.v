(** C36-C41: random access indices of containers with any other indices. *)
From Coq Require Import ZArith.
From Verif Require Import Prelude SeqSpec SeqUser Layer LayerBase PosOk RndModel RndProofs RndRot RndOps RndMore RndMove RndIdx
  Stack View Container ContOk Iops Up Down History ContSpec Client ContEx ContProps Focus.
From Verif Require RangeProps.
Set Implicit Arguments.

(** ** what is found in memory: the array [r] of an index whose elements are [l], [h] being end() *)
Record vector (r : rst) (h : node) (l : list node) : Prop := mkVec {
  v_size : rsz r = length l;
  v_cap : rsz r <= rcap r;
  v_at : forall i x, nth_error l i = Some x -> slot r (rbs r + i) = Some x /\ rup r x = Some (rbs r + i);
  v_end : slot r (rbs r + rsz r) = Some h /\ rup r h = Some (rbs r + rsz r);
  v_alloc : forall i, i <= rcap r -> slot r (rbs r + i) <> None }.
Lemma vector_of r h l : arr r (l ++ [h]) -> vector r h l.
Proof.
  intros A. assert (Ln := a_len A). rewrite app_length in Ln. cbn in Ln. assert (Sz : rsz r = length l) by lia. split; auto.
  - apply A.
  - intros i x E. assert (Li : i < length l) by (apply nth_error_Some; congruence).
    split; [apply (a_slot A)|apply (a_up A)]; now rewrite nth_error_app1.
  - rewrite Sz. split; [apply (a_slot A)|apply (a_up A)]; now rewrite nth_error_app2, Nat.sub_diag by lia.
  - apply A.
Qed.
Lemma arr_get r h l i : arr r (l ++ [h]) -> i <= length l ->
  slot r (rbs r + i) = Some (nth i l h) /\ rup r (nth i l h) = Some (rbs r + i).
Proof.
  intros A Li. assert (E : nth_error (l ++ [h]) i = Some (nth i l h)).
  { destruct (Nat.lt_ge_cases i (length l)) as [H|H].
    - rewrite nth_error_app1 by auto. now apply nth_error_nth'.
    - replace i with (length l) by lia. rewrite nth_error_app2, Nat.sub_diag by lia. cbn. now rewrite nth_overflow. }
  split; [now apply (a_slot A)|now apply (a_up A)].
Qed.
Lemma firsts_uniq pred : forall l m, firsts pred m l = m :: uniq_from (fun x a => pred a x) m l.
Proof. induction l as [|x l IH]; intros m; cbn; auto. destruct (pred m x); rewrite IH; auto. Qed.
Lemma firsts_of_uniq pred l : firsts_of pred l = uniq (fun x a => pred a x) l.
Proof. destruct l as [|m l]; cbn; auto. apply firsts_uniq. Qed.
Lemma uniq_incl rel l : incl (uniq rel l) l.
Proof.
  assert (X : forall l a, incl (uniq_from rel a l) l).
  { induction l0 as [|x l0 IH]; intros a y; cbn; auto. destruct (rel x a); cbn; intros I; [right; eapply IH; eauto|].
    destruct I as [->|I]; auto. right. eapply IH; eauto. }
  destruct l as [|a l]; cbn; [easy|]. intros y [->|I]; [now left|]. right. eapply X; eauto.
Qed.

(** [subseq l l'] : [l] is [l'] with some elements left out *)
Inductive subseq {A} : list A -> list A -> Prop :=
| sub_nil : subseq [] []
| sub_take x l l' : subseq l l' -> subseq (x :: l) (x :: l')
| sub_skip x l l' : subseq l l' -> subseq l (x :: l').
Lemma sub_none {A} (l : list A) : subseq [] l.
Proof. induction l; constructor; auto. Qed.
Lemma subseq_incl {A} (l l' : list A) : subseq l l' -> incl l l'.
Proof. induction 1; intros y I; auto; [destruct I as [->|I]; [now left|]|]; right; auto. Qed.
Lemma subseq_filter (l l' : list node) : subseq l l' -> NoDup l' -> filter (fun x => existsb (Nat.eqb x) l) l' = l.
Proof.
  induction 1 as [|x l l' S IH|x l l' S IH]; intros ND; cbn; auto; inversion ND as [|? ? Nx ND']; subst.
  - rewrite Nat.eqb_refl. cbn. f_equal. etransitivity; [|exact (IH ND')]. apply filter_ext_in. intros y Iy.
    destruct (Nat.eqb_spec y x) as [->|]; auto. easy.
  - destruct (existsb (Nat.eqb x) l) eqn:E; auto. exfalso. apply existsb_exists in E as (y & Iy & E). apply Nat.eqb_eq in E. subst y.
    now apply Nx, (subseq_incl S).
Qed.
Lemma uniq_subseq rel l : subseq (uniq rel l) l.
Proof.
  assert (X : forall l a, subseq (uniq_from rel a l) l).
  { induction l0 as [|x l0 IH]; intros a; cbn; [constructor|]. destruct (rel x a); constructor; auto. }
  destruct l as [|a l]; cbn; constructor. apply X.
Qed.

Section Props.
Variable V : Type.
Variable throws : nat -> bool.
Variable pick : list node -> node.
Variable dv : V.
Variable hd : node.
(** the indices before and after the random access index looked at *)
Variables cs1 cs2 : list (code V).
Variable ju : nat.
Definition this : code V := RandomAccess V ju.
Notation all := (Focus.all cs1 cs2 this).

Notation box := (box throws pick hd all).
Notation sequences := (@sequences V throws pick hd all).
Notation count := (@count V throws pick hd all).
Notation value_of := (@value_of V throws pick dv hd all).
Notation memory := (@memory V throws pick hd all).
Notation calls := (@calls V throws pick hd all).
Notation reachable := (@reachable V throws pick hd all).
Notation setting := (setting pick hd all).
Notation sup := (stack throws pick hd (mem_world V) cs2).   (* the super of the index *)
Notation this_of := (@down V throws pick hd (mem_world V) (this :: cs2) cs1).
Notation holds := (@Focus.holds V throws pick hd cs1 cs2 this).
Notation gone := (@Focus.gone V throws pick hd cs1 cs2 this).
Notation of_index := (@Focus.of_index V throws pick hd cs1 cs2 this).
Implicit Types (s : St box) (lk nh l : list node) (ls : list (list node)).

Notation insert_values := (@RangeProps.insert_values V throws pick hd all).
Notation accepted := (RangeProps.accepted all).
Notation grown := (@RangeProps.grown V throws pick dv hd all).
Notation failed := (@RangeProps.failed V throws pick hd all).

(** the array of the index *)
Definition array s : rst := fst (this_of s).
Definition capacity s : nat := rcap (array s).          (* capacity(), 243-246 *)
(** an operation on the array, as an operation of the container *)
Definition own {A} (m : RM A) : M (St box) A := of_index (ownM m).
(** an operation of the index which leaves the elements alone *)
Definition op_index (o : iop V) : M (St box) unit := run_index throws pick hd all (length cs1, o).

(** pop_back, random_access_index.hpp:344; while(n--)pop_back() *)
Definition pop_back : M (St box) unit := x <- own (decrement hd) ;; c_erase box x.
Fixpoint pops (n : nat) : M (St box) unit :=
  match n with O => ret tt | S n => pop_back ;;; pops n end.
(** n counts down to 0 provided that it is not negative *)
Definition pops_z (n : Z) : M (St box) unit := if (n <? 0)%Z then ub else pops (Z.to_nat n).
(** insert(position,x), 349-359 *)
Definition insert_at (pos : node) (v : V) : M (St box) (node * bool) :=
  p <- c_insert box v None ;;
  (if (snd p && negb (pos =? hd))%bool then own (relocate_node pos (fst p)) else ret tt) ;;;
  ret p.
(** push_front, 331-334; pop_front, 335 *)
Definition push_front (v : V) : M (St box) (node * bool) := b <- own r_begin ;; insert_at b v.
Definition pop_front : M (St box) unit := b <- own r_begin ;; c_erase box b.
(** insert(position,first,last) and insert(position,n,x): the values are pushed back one by one, then
    moved into place, even if an exception is thrown; 373-390 and 1040-1080 *)
Fixpoint push_all (vs : list V) (n : nat) : M (St box * nat) unit :=
  match vs with
  | [] => fun st => Ret tt (fst st, n)
  | v :: vs => fun st => match c_insert box v None (fst st) with
                         | Ret p s => push_all vs (if snd p : bool then S n else n) (s, 0)
                         | Exn s => Exn (s, n)
                         | UB => UB
                         end
  end.
Definition insert_all (pos : node) (vs : list V) : M (St box) unit :=
  fun s => match push_all vs 0 (s, 0) with
           | Ret _ (s, n) => (f <- own (advance hd (- Z.of_nat n)) ;; own (r_relocate_range pos f hd)) s
           | Exn (s, n) => (f <- own (advance hd (- Z.of_nat n)) ;; own (r_relocate_range pos f hd) ;;; throw) s
           | UB => UB
           end.
(** erase(position), 428-436 *)
Definition erase_at (x : node) : M (St box) node :=
  y <- own (increment x) ;; c_erase box x ;;; ret y.
(** erase(first,last), 438-450 *)
Definition erase_range (first last : node) : M (St box) node :=
  n <- own (distance first last) ;; own (r_relocate_range hd first last) ;;; pops_z n ;;; ret last.
(** resize(n,x), 300-305 *)
Definition resize (n : nat) (v : V) : M (St box) unit :=
  c <- size box ;;
  if c <? n then insert_values (repeat v (n - c)) else if n <? c then f <- own (r_nth n) ;; erase_range f hd ;;; ret tt else ret tt.
(** assign(first,last), assign_iter, 1029-1035; assign(n,value), 1037-1042, with n times the same value *)
Definition assign (vs : list V) : M (St box) unit := c_clear box ;;; insert_values vs.
(** at(n), 317-321; operator[], 311-315, without the test *)
Definition at_ (i : nat) : M (St box) V :=
  n <- size box ;; if n <=? i then throw else x <- own (r_nth i) ;; basM box (value x).
(** remove_if, 636-643, and unique, 655-662 *)
Definition remove_if (pred : V -> bool) : M (St box) unit :=
  x <- of_index (n_remove throws sup pred) ;; n <- own (distance x hd) ;; pops_z n.
Definition unique (pred : V -> V -> bool) : M (St box) unit :=
  x <- of_index (n_unique throws sup pred) ;; n <- own (distance x hd) ;; pops_z n.

Hypothesis St_ : setting.

Lemma open_rnd s lk nh l : reachable s lk nh -> holds s l -> arr (array s) (l ++ [hd]).
Proof. intros R H. destruct (open_at dv St_ R H) as (a & (A & _) & -> & _). exact A. Qed.
Lemma this_pair s : this_of s = (array s, snd (this_of s)).
Proof. apply surjective_pairing. Qed.
Lemma own_ret A B (m : RM A) (st : rst * B) r : m (fst st) = Ret r (fst st) -> ownM m st = Ret r st.
Proof. intros E. unfold ownM, lensM. rewrite E. now rewrite <- surjective_pairing. Qed.
Lemma own_ro A (m : RM A) s r : m (array s) = Ret r (array s) -> own m s = Ret r s.
Proof.
  intros E. unfold own. apply of_index_ro. refine (own_ret _ _ _). exact E.
Qed.
Lemma own_run A (m : RM A) s :
  match own m s with
  | Ret r s' => m (array s) = Ret r (array s') /\ calls s' = calls s
  | Exn s' => m (array s) = Exn (array s')
  | UB => m (array s) = UB
  end.
Proof.
  assert (E := index_run throws pick hd cs1 cs2 this (ownM m) s). fold (own m) in E.
  unfold ownM, lensM in E. destruct (own m s) as [r s'|s'|].
  - assert (C : snd (this_of s') = snd (this_of s) /\ m (array s) = Ret r (array s')).
    { unfold array. destruct (this_of s) as (r0, t0). cbn [fst snd] in *. destruct (m r0); try discriminate E. injection E as <- E.
      rewrite <- E. auto. }
    destruct C as (C1 & C2). split; auto.  rewrite !calls_this. exact (f_equal (fun t => tk (bget sup t)) C1).
  - unfold array. destruct (this_of s) as (r0, t0). cbn [fst snd] in *. destruct (m r0); try discriminate E. injection E as E.
    now rewrite <- E.
  - unfold array. destruct (this_of s) as (r0, t0). cbn [fst snd] in *. now destruct (m r0).
Qed.
(** a move done to the array *)
Lemma own_move s (o : sop) : own (exec_rop o) s = op_index (Move V o) s.
Proof. unfold op_index. symmetry. exact (run_of_index throws pick hd cs1 cs2 this (Move V o) s). Qed.

(** ** C37 *)
Theorem C37_vector s lk nh l : reachable s lk nh -> holds s l -> vector (array s) hd l /\ count s = length l.
Proof.
  intros R H. split; [now apply vector_of, (open_rnd R H)|]. destruct (open_at dv St_ R H) as (a & _ & _ & _ & _ & _ & _ & C & _). exact C.
Qed.
(** begin(), begin()+i, operator[](i) *)
Theorem C37_begin s lk nh l : reachable s lk nh -> holds s l -> own r_begin s = Ret (List.hd hd l) s.
Proof.
  intros R H. apply own_ro. assert (A := open_rnd R H). destruct (@arr_get _ _ _ 0 A) as (E & _); [lia|].
  unfold r_begin, bind, a_begin, rd. rewrite Nat.add_0_r in E. rewrite E. now destruct l.
Qed.
Theorem C37_nth s lk nh l i : reachable s lk nh -> holds s l -> i <= length l -> own (r_nth i) s = Ret (nth i l hd) s.
Proof.
  intros R H Li. apply own_ro. assert (A := open_rnd R H). destruct (@arr_get _ _ _ _ A Li) as (E & _).
  unfold r_nth, bind, a_at, rd. now rewrite E.
Qed.
(** it+=n, for positions i and i+n in [0,size()] *)
Theorem C37_advance s lk nh l i j : reachable s lk nh -> holds s l -> i <= length l -> j <= length l ->
  own (advance (nth i l hd) (Z.of_nat j - Z.of_nat i)) s = Ret (nth j l hd) s.
Proof.
  intros R H Li Lj. apply own_ro. assert (A := open_rnd R H). destruct (@arr_get _ _ _ _ A Li) as (_ & E). destruct (@arr_get _ _ _ _ A Lj) as (F & _).
  unfold advance, bind, get_up. rewrite E. destruct (Z.ltb_spec (Z.of_nat (rbs (array s) + i) + (Z.of_nat j - Z.of_nat i)) 0); [lia|].
  replace (Z.to_nat (Z.of_nat (rbs (array s) + i) + (Z.of_nat j - Z.of_nat i))) with (rbs (array s) + j) by lia. unfold rd. now rewrite F.
Qed.
Theorem C37_distance s lk nh l i j : reachable s lk nh -> holds s l -> i <= length l -> j <= length l ->
  own (distance (nth i l hd) (nth j l hd)) s = Ret (Z.of_nat j - Z.of_nat i)%Z s.
Proof.
  intros R H Li Lj. apply own_ro. assert (A := open_rnd R H). destruct (@arr_get _ _ _ _ A Li) as (_ & E). destruct (@arr_get _ _ _ _ A Lj) as (_ & F).
  unfold distance, bind, get_up. rewrite E, F. unfold ret. f_equal. lia.
Qed.
Theorem C37_next s lk nh l i : reachable s lk nh -> holds s l -> i < length l ->
  own (increment (nth i l hd)) s = Ret (nth (S i) l hd) s /\ own (decrement (nth (S i) l hd)) s = Ret (nth i l hd) s.
Proof.
  intros R H Li. assert (A := open_rnd R H). destruct (@arr_get _ _ _ i A) as (E1 & E2); [lia|]. destruct (@arr_get _ _ _ (S i) A) as (F1 & F2); [lia|].
  split; apply own_ro; unfold increment, decrement, bind, get_up, rd.
  - rewrite E2. replace (rbs (array s) + i + 1) with (rbs (array s) + S i) by lia. now rewrite F1.
  - rewrite F2. replace (rbs (array s) + S i - 1) with (rbs (array s) + i) by lia. now rewrite E1.
Qed.
(** push_back, and insert before a position *)
Theorem C37_push_back s lk nh l v : reachable s lk nh -> holds s l ->
  match c_insert box v None s with
  | Ret (x, true) s' => holds s' (l ++ [x]) /\ memory s' = (x, Some v) :: memory s /\ ~ In x (map fst (memory s)) /\ reachable s' (x :: lk) nh
  | Ret (x, false) s' => holds s' l /\ memory s' = memory s /\ In x lk /\ conflict all v (value_of s x) /\ reachable s' lk nh
  | Exn s' => holds s' l /\ memory s' = memory s /\ blown throws (calls s) (calls s') /\ reachable s' lk nh
  | UB => False
  end.
Proof.
  intros R (ls & Sq & Nt). assert (W := insert_effect dv cs1 cs2 this St_ v R Sq Nt).
  destruct (c_insert _ v None s) as [(x, [|]) s'|s'|]; [| | |exact W].
  - destruct W as (R' & M & Nx & l' & H & P). cbn in P. subst l'. auto.
  - destruct W as (R' & M & Ix & Cf & l' & H & ->). auto.
  - destruct W as (R' & M & B & l' & H & ->). auto.
Qed.
Lemma arr_fun r f g : arr r f -> arr r g -> f = g.
Proof.
  intros A B. assert (L := a_len A). rewrite <- (a_len B) in L.
  apply (nth_ext f g 0 0 L). intros i Li.
  assert (E1 := a_slot A i (nth_error_nth' f 0 Li)). rewrite L in Li. assert (E2 := a_slot B i (nth_error_nth' g 0 Li)). congruence.
Qed.
(** the effect of a move on the sequences *)
Lemma move_effect s lk nh ls l l' o : reachable s lk nh -> sequences s = Some ls -> nth_error ls (length cs1) = Some l ->
  sstep hd o (l, []) (l', []) -> moving o = true ->
  match own (exec_rop o) s with
  | Ret _ s' => reachable s' lk nh /\ memory s' = memory s /\ calls s' = calls s /\ capacity s' = capacity s /\
      sequences s' = Some (set_nth (length cs1) l' ls) /\ holds s' l'
  | _ => False
  end.
Proof.
  intros R Sq Nt Sp Mv.
  assert (Al : iallowed hd this l (Move V o)) by (cbn; eauto).
  assert (W := index_effect dv cs1 cs2 this St_ (Move V o) R Sq Nt Al). change (run_index _ _ _ _ _ s) with (op_index (Move V o) s) in W.
  rewrite <- own_move in W.
  assert (A : arr (array s) (l ++ [hd])) by (eapply open_rnd; [exact R|exists ls; auto]).
  assert (X := exec_rop_ok A Mv Sp). assert (Y := own_run (exec_rop o) s). unfold wp in X.
  destruct (own (exec_rop o) s) as [u s'|s'|]; [destruct Y as (Y & Yc)| |]; rewrite Y in X; [|easy|easy].
  destruct X as (A' & Kp & _). destruct W as (R' & M & _ & Q & l2 & _ & Sq' & H').
  assert (A2 := open_rnd R' H'). assert (l2 = l').
  { apply (app_inv_tail [hd]). eapply arr_fun; eauto. }
  subst l2. splits; auto. apply Kp.
Qed.

(** insertion before a position *)
Theorem C37_insert s lk nh l1 l2 v : reachable s lk nh -> holds s (l1 ++ l2) ->
  match insert_at (List.hd hd l2) v s with
  | Ret (x, true) s' => holds s' (l1 ++ x :: l2) /\ memory s' = (x, Some v) :: memory s /\ ~ In x (map fst (memory s)) /\ reachable s' (x :: lk) nh
  | Ret (x, false) s' => holds s' (l1 ++ l2) /\ memory s' = memory s /\ In x lk /\ conflict all v (value_of s x) /\ reachable s' lk nh
  | Exn s' => holds s' (l1 ++ l2) /\ memory s' = memory s /\ blown throws (calls s) (calls s') /\ reachable s' lk nh
  | UB => False
  end.
Proof.
  intros R H0. assert (W := C37_push_back v R H0). unfold insert_at, bind.
  destruct (c_insert box v None s) as [(x, [|]) s1|s1|]; [| | |exact W]; cbn [fst snd andb]; [|exact W|exact W].
  - destruct W as (H1 & M1 & Nx & R1).
    destruct (Nat.eqb_spec (List.hd hd l2) hd) as [E|E]; cbn [negb].
    + unfold ret. destruct l2 as [|y l2]; [rewrite app_nil_r in H1; auto|]. cbn in E. subst y. exfalso.
      assert (N := nodup_this dv St_ R H0). inversion N as [|? ? N1 _]; subst. apply N1, in_or_app. right. now left.
    + destruct H1 as (ls1 & Sq1 & Nt1).
      assert (Sp : sstep hd (SRelocate (List.hd hd l2) x) ((l1 ++ l2) ++ [x], []) (l1 ++ x :: l2, [])).
      { apply (st_relocate hd (l1 ++ l2) x []). now rewrite app_nil_r. }
      assert (W2 := move_effect R1 Sq1 Nt1 Sp eq_refl). cbn [exec_rop] in W2. unfold r_relocate in W2.
      destruct (Nat.eqb_spec (List.hd hd l2) x) as [Ex|_].
      { exfalso. destruct l2 as [|y l2]; [easy|]. cbn in Ex. subst y.
        assert (N := nodup_this dv St_ R1 (ex_intro _ ls1 (conj Sq1 Nt1))). inversion N as [|? ? _ N1]; subst.
        apply NoDup_app_iff in N1 as (_ & _ & N1). apply (N1 x); [|now left]. apply in_or_app. right. now left. }
      destruct (own (relocate_node (List.hd hd l2) x) s1) as [u s2|s2|]; [|easy|easy].
      destruct W2 as (R2 & M2 & _ & _ & _ & H2). unfold ret. splits; auto. now rewrite M2.
Qed.
(** push_front is insertion before begin() *)
Theorem C37_push_front s lk nh l v : reachable s lk nh -> holds s l ->
  match push_front v s with
  | Ret (x, true) s' => holds s' (x :: l) /\ memory s' = (x, Some v) :: memory s /\ ~ In x (map fst (memory s)) /\ reachable s' (x :: lk) nh
  | Ret (x, false) s' => holds s' l /\ memory s' = memory s /\ In x lk /\ conflict all v (value_of s x) /\ reachable s' lk nh
  | Exn s' => holds s' l /\ memory s' = memory s /\ blown throws (calls s) (calls s') /\ reachable s' lk nh
  | UB => False
  end.
Proof. intros R H. unfold push_front, bind. rewrite (C37_begin R H). exact (C37_insert [] l v R H). Qed.
(** erasure; end() is popped only if there are elements *)
Lemma erase_one s lk nh ls a x b : reachable s lk nh -> sequences s = Some ls -> nth_error ls (length cs1) = Some (a ++ x :: b) ->
  match c_erase box x s with
  | Ret _ s' => reachable s' (remove Nat.eq_dec x lk) nh /\ gone s s' ls [x] /\ holds s' (a ++ b)
  | _ => False
  end.
Proof.
  intros R Sq Nt. assert (H : holds s (a ++ x :: b)) by (exists ls; auto).
  assert (Ix : In x lk). { eapply Permutation_in; [eapply (perm_this dv St_); eauto|]. apply in_or_app. right. now left. }
  assert (W := erase_effect dv cs1 cs2 this St_ x R Sq Ix).
  destruct (c_erase box x s) as [u s'|s'|]; auto. destruct W as (R' & G). splits; auto.
  assert (H' := gone_this Nt G). rewrite <- remove_filter in H'.
  rewrite remove_mid in H'; auto. assert (N := nodup_this dv St_ R H). now inversion N.
Qed.
Theorem C37_erase s lk nh ls a x b : reachable s lk nh -> sequences s = Some ls -> nth_error ls (length cs1) = Some (a ++ x :: b) ->
  match erase_at x s with
  | Ret y s' => y = List.hd hd b /\ holds s' (a ++ b) /\ gone s s' ls [x] /\ reachable s' (remove Nat.eq_dec x lk) nh
  | _ => False
  end.
Proof.
  intros R Sq Nt. assert (H : holds s (a ++ x :: b)) by (exists ls; auto). unfold erase_at, bind.
  destruct (@C37_next s lk nh _ (length a) R H) as (E & _); [rewrite app_length; cbn; lia|].
  assert (Ex : nth (length a) (a ++ x :: b) hd = x) by (rewrite app_nth2, Nat.sub_diag by lia; reflexivity). rewrite Ex in E.
  assert (Ey : nth (S (length a)) (a ++ x :: b) hd = List.hd hd b).
  { rewrite app_nth2 by lia. replace (S (length a) - length a) with 1 by lia. now destruct b. }
  rewrite Ey in E. rewrite E. assert (W := @erase_one _ _ _ _ _ _ _ R Sq Nt). destruct (c_erase box x s) as [u s'|s'|]; auto.
  unfold ret. tauto.
Qed.
Theorem C37_clear s lk nh l : reachable s lk nh -> holds s l ->
  match c_clear box s with
  | Ret _ s' => holds s' [] /\ vector (array s') hd []
  | _ => False
  end.
Proof.
  intros R (ls & Sq & Nt). assert (W := C50_clear dv St_ R Sq). destruct (c_clear box s) as [u s'|s'|] eqn:E; auto.
  assert (H : holds s' []).
  { destruct W as (_ & _ & Sq' & _). eexists. split; [exact Sq'|]. erewrite map_nth_error; [reflexivity|apply this_at]. }
  split; auto. apply vector_of. eapply (@open_rnd s' [] nh); auto.
  refine (@reach_ret V throws pick hd box _ (@run_index V throws pick hd all) (@can_index V throws pick hd all) _ s lk nh (Clear _ _) Nothing s' R I _).
  cbn [exec]. unfold bind. now rewrite E.
Qed.

(** erasing a range *)
Lemma pop_back_ok s lk nh ls l x : reachable s lk nh -> sequences s = Some ls -> nth_error ls (length cs1) = Some (l ++ [x]) ->
  match pop_back s with
  | Ret _ s' => reachable s' (remove Nat.eq_dec x lk) nh /\ gone s s' ls [x] /\ holds s' l
  | _ => False
  end.
Proof.
  intros R Sq Nt. assert (H : holds s (l ++ [x])) by (exists ls; auto). unfold pop_back, bind.
  destruct (@C37_next s lk nh _ (length l) R H) as (_ & E); [rewrite app_length; cbn; lia|].
  rewrite nth_overflow in E by (rewrite app_length; cbn; lia). rewrite app_nth2, Nat.sub_diag in E by lia. cbn [nth] in E. rewrite E.
  assert (W := @erase_one _ _ _ _ _ _ _ R Sq Nt). now rewrite app_nil_r in W.
Qed.
Lemma pops_ok d : forall s lk nh ls k, reachable s lk nh -> sequences s = Some ls -> nth_error ls (length cs1) = Some (k ++ d) ->
  match pops (length d) s with
  | Ret _ s' => (exists lk', reachable s' lk' nh) /\ gone s s' ls d /\ holds s' k
  | _ => False
  end.
Proof.
  induction d as [|x d IH] using rev_ind; intros s lk nh ls k R Sq Nt.
  - rewrite app_nil_r in Nt. cbn. splits; [eauto|now apply gone_nil|exists ls; auto].
  - rewrite app_length, Nat.add_comm. cbn [length Nat.add pops]. rewrite app_assoc in Nt. unfold bind at 1.
    assert (W := @pop_back_ok _ _ _ _ _ _ R Sq Nt). destruct (pop_back s) as [u s1|s1|]; auto. destruct W as (R1 & G1 & (ls1 & Sq1 & Nt1)).
    assert (ls1 = map (drop [x]) ls) by (destruct G1 as (_ & _ & E & _); congruence). subst ls1.
    assert (W := IH s1 _ nh _ k R1 Sq1 Nt1). destruct (pops (length d) s1) as [u2 s'|s'|]; auto.
    destruct W as (R' & G' & H'). splits; auto. eapply gone_ext; [|eapply gone_trans; eauto].
    intros y. rewrite !in_app_iff. tauto.
Qed.
Lemma pops_z_ok d s lk nh ls k : reachable s lk nh -> sequences s = Some ls -> nth_error ls (length cs1) = Some (k ++ d) ->
  match pops_z (Z.of_nat (length d)) s with
  | Ret _ s' => (exists lk', reachable s' lk' nh) /\ gone s s' ls d /\ holds s' k
  | _ => False
  end.
Proof.
  intros R Sq Nt. unfold pops_z. destruct (Z.ltb_spec (Z.of_nat (length d)) 0); [lia|]. rewrite Nat2Z.id. eapply pops_ok; eauto.
Qed.
(** the last elements of the index, once put there, are removed from all indices *)
Lemma sweep s s1 lk nh ls l k d : reachable s lk nh -> sequences s = Some ls -> nth_error ls (length cs1) = Some l ->
  reachable s1 lk nh -> sequences s1 = Some (set_nth (length cs1) (k ++ d) ls) -> memory s1 = memory s -> drop d l = k ->
  match pops_z (Z.of_nat (length d)) s1 with
  | Ret _ s' => (exists lk', reachable s' lk' nh) /\ holds s' k /\ sequences s' = Some (map (drop d) ls) /\
      (forall x, In x d -> look (memory s') x = None) /\ (forall x, ~ In x d -> look (memory s') x = look (memory s) x)
  | _ => False
  end.
Proof.
  intros R Sq Nt R1 Sq1 M Dk. assert (Lt : length cs1 < length ls) by (apply nth_error_Some; congruence).
  assert (W := @pops_z_ok d _ _ _ _ k R1 Sq1 (set_nth_at (k ++ d) ls Lt)).
  destruct (pops_z _ s1) as [u s'|s'|]; auto. destruct W as (R' & G & H). assert (G0 := G). destruct G0 as (G1 & G2 & G3 & _).
  splits; auto.
  - rewrite G3, set_nth_map. f_equal. apply set_nth_id. erewrite map_nth_error; [|exact Nt]. f_equal.
    assert (H' := gone_this (set_nth_at (k ++ d) ls Lt) G). rewrite Dk. eapply holds_fun; eauto.
  - intros x N. rewrite G2 by auto. now rewrite M.
Qed.
Theorem C37_erase_range s lk nh ls a seg b : reachable s lk nh -> sequences s = Some ls ->
  nth_error ls (length cs1) = Some (a ++ seg ++ b) ->
  match erase_range (List.hd hd (seg ++ b)) (List.hd hd b) s with
  | Ret y s' => y = List.hd hd b /\ (exists lk', reachable s' lk' nh) /\ holds s' (a ++ b) /\ sequences s' = Some (map (drop seg) ls) /\
      (forall x, In x seg -> look (memory s') x = None) /\ (forall x, ~ In x seg -> look (memory s') x = look (memory s) x)
  | _ => False
  end.
Proof.
  intros R Sq Nt. assert (H : holds s (a ++ seg ++ b)) by (exists ls; auto). unfold erase_range, bind.
  assert (Ef : List.hd hd (seg ++ b) = nth (length a) (a ++ seg ++ b) hd).
  { rewrite app_nth2, Nat.sub_diag by lia. now destruct (seg ++ b). }
  assert (El : List.hd hd b = nth (length a + length seg) (a ++ seg ++ b) hd).
  { rewrite app_nth2, app_nth2 by lia. replace (length a + length seg - length a - length seg) with 0 by lia. now destruct b. }
  assert (D := @C37_distance s lk nh _ (length a) (length a + length seg) R H). rewrite <- Ef, <- El in D.
  rewrite D by (rewrite !app_length; lia). replace (Z.of_nat (length a + length seg) - Z.of_nat (length a))%Z with (Z.of_nat (length seg)) by lia.
  assert (Sp : sstep hd (SRelocateRange hd (List.hd hd (seg ++ b)) (List.hd hd b)) (a ++ seg ++ b, []) ((a ++ b) ++ seg ++ [], [])).
  { apply (st_relocate_range hd a seg b (a ++ b) []). now rewrite app_nil_r. }
  rewrite app_nil_r in Sp. assert (W := move_effect R Sq Nt Sp eq_refl). cbn [exec_rop] in W.
  destruct (own (r_relocate_range hd _ _) s) as [u s1|s1|]; [|easy|easy]. destruct W as (R1 & M1 & _ & _ & Sq1 & H1).
  assert (ND := nodup_this dv St_ R H). inversion ND as [|? ? _ ND']; subst.
  assert (Dk : drop seg (a ++ seg ++ b) = a ++ b).
  { apply NoDup_app_iff in ND' as (_ & N2 & N3). apply NoDup_app_iff in N2 as (_ & _ & N4). rewrite !drop_app.
    rewrite (drop_all seg seg) by auto. cbn. f_equal; apply drop_none.
    - intros x I J. apply (N3 x I). apply in_or_app. auto.
    - intros x I J. eapply N4; eauto. }
  assert (W := @sweep _ _ _ _ _ _ _ _ R Sq Nt R1 Sq1 M1 Dk). destruct (pops_z _ s1) as [u2 s'|s'|]; auto. unfold ret. split; auto.
Qed.
(** insertion of several values: see [RangeProps.grown] *)
Lemma push_all_ok vs : forall s lk nh ls n, reachable s lk nh -> sequences s = Some ls ->
  match push_all vs n (s, 0) with
  | Ret _ (s', n') => exists xs, n' = n + length xs /\ grown s s' lk nh ls vs xs
  | Exn (s', n') => failed s' /\ exists vs1 v vs2 xs, vs = vs1 ++ v :: vs2 /\ n' = n + length xs /\ grown s s' lk nh ls vs1 xs
  | UB => False
  end.
Proof.
  induction vs as [|v vs IH]; intros s lk nh ls n R Sq; cbn [push_all fst].
  - exists []. cbn. split; [lia|]. assert (X := RangeProps.C53_insert_range dv St_ [] R Sq). cbn in X. destruct X as (xs & X).
    assert (xs = []) as ->; [|exact X]. destruct X as (_ & Ac & _). destruct xs; auto. inversion Ac.
  - assert (W := RangeProps.insert_one dv St_ v None R Sq I).
    destruct (c_insert box v None s) as [(x, b) s1|s1|]; [| |exact W]; cbn [snd].
    + assert (G : exists xs, length xs = (if b then 1 else 0) /\ grown s s1 lk nh ls [v] xs).
      { destruct b; [exists [x]; auto|destruct W; exists []; auto]. }
      destruct G as (xs1 & L1 & G). assert (G' := G). destruct G' as (R1 & _ & _ & _ & ls1 & Sq1 & _).
      assert (X := IH s1 _ nh ls1 (if b then S n else n) R1 Sq1).
      destruct (push_all vs (if b then S n else n) (s1, 0)) as [u (s', n')|(s', n')|]; auto.
      * destruct X as (xs & -> & X). exists (xs1 ++ xs). split; [rewrite app_length, L1; destruct b; lia|].
        exact (RangeProps.grown_trans G Sq1 X).
      * destruct X as (Fl & vs1 & w & vs2 & xs & -> & -> & X). split; auto. exists (v :: vs1), w, vs2, (xs1 ++ xs).
        splits; auto; [rewrite app_length, L1; destruct b; lia|]. exact (RangeProps.grown_trans G Sq1 X).
    + destruct W as (G & Fl). split; auto. exists [], v, vs, []. cbn. splits; auto.
Qed.
Lemma grown_this s s' lk nh ls vs xs l : grown s s' lk nh ls vs xs -> nth_error ls (length cs1) = Some l -> holds s' (l ++ xs).
Proof.
  intros (_ & _ & _ & _ & ls' & Sq & Ea) Nt. destruct (Focus.each_nth _ Ea (this_at cs1 cs2 this) Nt) as (l' & N' & ->).
  exists ls'. auto.
Qed.
(** the values which were accepted are where they should be, even after an exception *)
Theorem C37_insert_range s lk nh l1 l2 vs : reachable s lk nh -> holds s (l1 ++ l2) ->
  let res s' part := exists xs, holds s' (l1 ++ xs ++ l2) /\ reachable s' (rev xs ++ lk) nh /\
    accepted (map (value_of s) lk) part (map (value_of s') xs) /\ forall y, In y lk -> value_of s' y = value_of s y in
  match insert_all (List.hd hd l2) vs s with
  | Ret _ s' => res s' vs
  | Exn s' => failed s' /\ exists vs1 v vs2, vs = vs1 ++ v :: vs2 /\ res s' vs1
  | UB => False
  end.
Proof.
  intros R H res. destruct H as (ls & Sq & Nt). assert (X := @push_all_ok vs _ _ _ _ 0 R Sq). unfold insert_all.
  assert (Y : forall s1 part xs, grown s s1 lk nh ls part xs ->
    exists s', (f <- own (advance hd (- Z.of_nat (length xs))) ;; own (r_relocate_range (List.hd hd l2) f hd)) s1 = Ret tt s' /\ calls s' = calls s1 /\ res s' part).
  { intros s1 part xs G. assert (H1 := grown_this G Nt). destruct G as (R1 & Ac & _ & Vl & _). unfold bind.
    assert (A := @C37_advance s1 _ nh _ (length ((l1 ++ l2) ++ xs)) (length (l1 ++ l2)) R1 H1).
    rewrite nth_overflow in A by lia. rewrite app_nth2, Nat.sub_diag in A by lia.
    replace (Z.of_nat (length (l1 ++ l2)) - Z.of_nat (length ((l1 ++ l2) ++ xs)))%Z with (- Z.of_nat (length xs))%Z in A by (rewrite (app_length (l1 ++ l2)); lia).
    rewrite A by (rewrite ?(app_length (l1 ++ l2)); lia). destruct H1 as (ls1 & Sq1 & Nt1).
    assert (Sp : sstep hd (SRelocateRange (List.hd hd l2) (List.hd hd (xs ++ [])) (List.hd hd [])) ((l1 ++ l2) ++ xs ++ [], []) (l1 ++ xs ++ l2, [])).
    { apply (st_relocate_range hd (l1 ++ l2) xs [] l1 l2). now rewrite app_nil_r. }
    rewrite app_nil_r in Sp. cbn [List.hd] in Sp. replace (nth 0 xs hd) with (List.hd hd xs) by now destruct xs.
    assert (W := move_effect R1 Sq1 Nt1 Sp eq_refl). cbn [exec_rop] in W.
    destruct (own (r_relocate_range _ _ _) s1) as [[] s'|s'|]; [|easy|easy]. exists s'. split; auto.
    destruct W as (R' & M & Cs & _ & _ & H'). split; auto.
    assert (Vy : forall y, value_of s' y = value_of s1 y).
    { intros y. unfold Client.value_of, val. unfold Client.memory in M. now rewrite M. }
    exists xs. splits; auto.
    - rewrite (map_ext _ _ Vy). exact Ac.
    - intros y Iy. rewrite Vy. auto. }
  destruct (push_all vs 0 (s, 0)) as [u (s1, n1)|(s1, n1)|]; [| |exact X].
  - destruct X as (xs & -> & X). destruct (Y _ _ _ X) as (s' & E & _ & Rs). cbn [Nat.add]. rewrite E. exact Rs.
  - destruct X as (Fl & vs1 & v & vs2 & xs & -> & -> & X). destruct (Y _ _ _ X) as (s' & E & Cs & Rs). cbn [Nat.add]. unfold bind in *.
    destruct (own (advance _ _) s1); try discriminate E. rewrite E. unfold throw. split; [unfold RangeProps.failed; now rewrite Cs|].
    exists vs1, v, vs2. auto.
Qed.
(** assign(first,last) and assign(n,x) *)
Theorem C37_assign s lk nh l vs : reachable s lk nh -> holds s l ->
  let res s' part := exists xs, holds s' xs /\ reachable s' (rev xs) nh /\ accepted [] part (map (value_of s') xs) in
  match assign vs s with
  | Ret _ s' => res s' vs
  | Exn s' => failed s' /\ exists vs1 v vs2, vs = vs1 ++ v :: vs2 /\ res s' vs1
  | UB => False
  end.
Proof.
  intros R (ls & Sq & Nt) res. unfold assign, bind. assert (W := C50_clear dv St_ R Sq). destruct (c_clear box s) as [u s1|s1|] eqn:E; try easy.
  destruct W as (_ & _ & Sq1 & _).
  assert (R1 : reachable s1 [] nh).
  { refine (@reach_ret V throws pick hd box _ (@run_index V throws pick hd all) (@can_index V throws pick hd all) _ s lk nh (Clear _ _) Nothing s1 R I _).
    cbn [exec]. unfold bind. now rewrite E. }
  assert (Nt1 : nth_error (map (fun _ : code V => @nil node) all) (length cs1) = Some []) by (erewrite map_nth_error; [reflexivity|apply this_at]).
  assert (K : forall s' part xs, grown s1 s' [] nh (map (fun _ => []) all) part xs -> res s' part).
  { intros s' part xs G. exists xs. assert (H' := grown_this G Nt1). destruct G as (R' & Ac & _). rewrite app_nil_r in R'. auto. }
  assert (W := RangeProps.C53_insert_range dv St_ vs R1 Sq1). destruct (insert_values vs s1) as [u' s'|s'|]; auto.
  - destruct W as (xs & G). eauto.
  - destruct W as (Fl & vs1 & v & vs2 & xs & -> & G). split; auto. exists vs1, v, vs2. split; eauto.
Qed.
(** resize(n,x) *)
Theorem C37_resize s lk nh ls l n v : reachable s lk nh -> sequences s = Some ls -> nth_error ls (length cs1) = Some l ->
  match resize n v s with
  | Ret _ s' =>
      (n <= length l -> holds s' (firstn n l) /\ (exists lk', reachable s' lk' nh) /\ sequences s' = Some (map (drop (skipn n l)) ls) /\
         (forall x, In x (skipn n l) -> look (memory s') x = None) /\ (forall x, ~ In x (skipn n l) -> look (memory s') x = look (memory s) x)) /\
      (length l < n -> exists xs, holds s' (l ++ xs) /\ reachable s' (rev xs ++ lk) nh /\
         accepted (map (value_of s) lk) (repeat v (n - length l)) (map (value_of s') xs))
  | Exn s' => failed s' /\ length l < n /\ exists xs m, holds s' (l ++ xs) /\ reachable s' (rev xs ++ lk) nh /\
         m < n - length l /\ accepted (map (value_of s) lk) (repeat v m) (map (value_of s') xs)
  | UB => False
  end.
Proof.
  intros R Sq Nt. assert (H : holds s l) by (exists ls; auto). destruct (C37_vector R H) as (_ & C).
  unfold resize, bind, size. change (cget box s) with (count s). rewrite C.
  destruct (Nat.ltb_spec (length l) n) as [Lt|Ge].
  - assert (W := RangeProps.C53_insert_range dv St_ (repeat v (n - length l)) R Sq).
    destruct (insert_values _ s) as [u s'|s'|]; [| |exact W].
    + split; [lia|]. intros _. destruct W as (xs & G). exists xs. assert (H' := grown_this G Nt). destruct G as (R' & Ac & _). auto.
    + destruct W as (Fl & vs1 & w & vs2 & xs & E & G). splits; auto. assert (H' := grown_this G Nt). destruct G as (R' & Ac & _). exists xs, (length vs1).
      assert (E1 : vs1 = repeat v (length vs1)).
      { apply Forall_eq_repeat. apply Forall_forall. intros y Iy. symmetry. apply (repeat_spec (n - length l) v). rewrite E. apply in_or_app. auto. }
      assert (E2 := f_equal (@length V) E). rewrite repeat_length, app_length in E2. cbn in E2. splits; auto; [lia|]. now rewrite <- E1.
  - destruct (Nat.ltb_spec n (length l)) as [Lt|Ge2].
    + rewrite (C37_nth R H) by lia.
      assert (Nt2 : nth_error ls (length cs1) = Some (firstn n l ++ skipn n l ++ [])) by now rewrite app_nil_r, firstn_skipn.
      assert (W := C37_erase_range _ _ _ R Sq Nt2). rewrite !app_nil_r in W. cbn [List.hd] in W.
      assert (En : List.hd hd (skipn n l) = nth n l hd).
      { rewrite <- (firstn_skipn n l) at 2. rewrite app_nth2; rewrite firstn_length_le by lia; [|lia]. rewrite Nat.sub_diag. now destruct (skipn n l). }
      rewrite En in W. destruct (erase_range (nth n l hd) hd s) as [y s'|s'|]; try easy. unfold ret.
      destruct W as (_ & R' & H' & W). split; [|lia]. intros _. auto.
    + assert (n = length l) by lia. subst n. unfold ret. split; [|lia]. intros _. rewrite firstn_all, skipn_all. splits; auto; [eauto| |easy].
      rewrite Sq. f_equal. symmetry. rewrite <- (map_id ls) at 2. apply map_ext. intros m. apply drop_none. easy.
Qed.
(** access by position *)
Theorem C37_at s lk nh l i : reachable s lk nh -> holds s l ->
  at_ i s = match nth_error l i with Some x => Ret (value_of s x) s | None => Exn s end.
Proof.
  intros R H. destruct (C37_vector R H) as (_ & C). unfold at_, bind, size. change (cget box s) with (count s). rewrite C.
  destruct (Nat.leb_spec (length l) i) as [Le|Lt].
  - assert (E : nth_error l i = None) by now apply nth_error_None. now rewrite E.
  - rewrite (C37_nth R H) by lia. rewrite (nth_error_nth' l hd Lt).
    destruct (open_at dv St_ R H) as (_ & _ & _ & _ & Lv & _). destruct (Lv (nth i l hd) (nth_In l hd Lt)) as (v & E).
    unfold basM, lensM, value, Client.value_of, val. rewrite E. f_equal. apply (o_gs (box_ok throws dv St_)).
Qed.
Theorem C37_pop_front s lk nh ls x l : reachable s lk nh -> sequences s = Some ls -> nth_error ls (length cs1) = Some (x :: l) ->
  match pop_front s with
  | Ret _ s' => reachable s' (remove Nat.eq_dec x lk) nh /\ gone s s' ls [x] /\ holds s' l
  | _ => False
  end.
Proof.
  intros R Sq Nt. assert (H : holds s (x :: l)) by (exists ls; auto). unfold pop_front, bind. rewrite (C37_begin R H).
  exact (@erase_one s lk nh ls [] x l R Sq Nt).
Qed.
Theorem C37_pop_back s lk nh ls x l : reachable s lk nh -> sequences s = Some ls -> nth_error ls (length cs1) = Some (l ++ [x]) ->
  match pop_back s with
  | Ret _ s' => reachable s' (remove Nat.eq_dec x lk) nh /\ gone s s' ls [x] /\ holds s' l
  | _ => False
  end.
Proof.
  intros R Sq Nt. assert (H : holds s (l ++ [x])) by (exists ls; auto). unfold pop_back, bind.
  assert (Li : length l < length (l ++ [x])) by (rewrite app_length; cbn; lia).
  destruct (C37_next R H Li) as (_ & E). rewrite nth_overflow in E by (rewrite app_length; cbn; lia).
  rewrite app_nth2, Nat.sub_diag in E by lia. cbn in E. rewrite E.
  assert (W := @erase_one s lk nh ls l x [] R Sq Nt). rewrite app_nil_r in W. exact W.
Qed.

(** ** C38 *)
Theorem C38_relocate s lk nh ls a i b l1 l2 : reachable s lk nh -> sequences s = Some ls ->
  nth_error ls (length cs1) = Some (a ++ i :: b) -> a ++ b = l1 ++ l2 ->
  match own (r_relocate (List.hd hd l2) i) s with
  | Ret _ s' => memory s' = memory s /\ calls s' = calls s /\ capacity s' = capacity s /\
      sequences s' = Some (set_nth (length cs1) (l1 ++ i :: l2) ls) /\ reachable s' lk nh
  | _ => False
  end.
Proof.
  intros R Sq Nt E. assert (W := move_effect R Sq Nt (st_relocate hd a i b l1 l2 [] E) eq_refl). cbn [exec_rop] in W.
  destruct (own _ s); auto. tauto.
Qed.
Theorem C38_relocate_self s lk nh ls l i : reachable s lk nh -> sequences s = Some ls ->
  nth_error ls (length cs1) = Some l -> In i l -> own (r_relocate i i) s = Ret tt s.
Proof. intros R Sq Nt I. apply own_ro. unfold r_relocate. now rewrite Nat.eqb_refl. Qed.
Theorem C38_relocate_range s lk nh ls a seg b l1 l2 : reachable s lk nh -> sequences s = Some ls ->
  nth_error ls (length cs1) = Some (a ++ seg ++ b) -> a ++ b = l1 ++ l2 ->
  match own (r_relocate_range (List.hd hd l2) (List.hd hd (seg ++ b)) (List.hd hd b)) s with
  | Ret _ s' => memory s' = memory s /\ calls s' = calls s /\ capacity s' = capacity s /\
      sequences s' = Some (set_nth (length cs1) (l1 ++ seg ++ l2) ls) /\ reachable s' lk nh
  | _ => False
  end.
Proof.
  intros R Sq Nt E. assert (W := move_effect R Sq Nt (st_relocate_range hd a seg b l1 l2 [] E) eq_refl). cbn [exec_rop] in W.
  destruct (own _ s); auto. tauto.
Qed.

(** ** C36, C41, reverse of C40 *)
Theorem C36_rearrange s lk nh ls l view : reachable s lk nh -> sequences s = Some ls ->
  nth_error ls (length cs1) = Some l -> Permutation l view ->
  match own (r_rearrange view) s with
  | Ret _ s' => memory s' = memory s /\ calls s' = calls s /\ sequences s' = Some (set_nth (length cs1) view ls) /\ reachable s' lk nh
  | _ => False
  end.
Proof.
  intros R Sq Nt E. assert (W := move_effect R Sq Nt (st_rearrange hd _ view [] E) eq_refl). cbn [exec_rop] in W.
  destruct (own _ s); auto. tauto.
Qed.
(** [range] are the elements met by iterating over another index, position is not among them *)
Theorem C41_splice s lk nh ls l1 l2 range : reachable s lk nh -> sequences s = Some ls ->
  nth_error ls (length cs1) = Some (l1 ++ l2) -> NoDup range -> incl range (l1 ++ l2) -> ~ In (List.hd hd l2) range ->
  match own (internal_splice (List.hd hd l2) range) s with
  | Ret _ s' => memory s' = memory s /\ calls s' = calls s /\
      sequences s' = Some (set_nth (length cs1) (drop range l1 ++ range ++ drop range l2) ls) /\ reachable s' lk nh
  | _ => False
  end.
Proof.
  intros R Sq Nt ND Inc Np. assert (H : holds s (l1 ++ l2)) by (exists ls; auto).
  assert (N0 := nodup_this dv St_ R H). inversion N0 as [|? ? Nh N1]; subst.
  assert (Pd : forall l, NoDup l -> Permutation l (filter (fun x => existsb (Nat.eqb x) range) l ++ drop range l)).
  { intros l _. unfold drop. induction l as [|x l IH]; cbn; auto. destruct (existsb (Nat.eqb x) range); cbn.
    - now constructor.
    - rewrite IH at 1. perm. }
  assert (Pr : Permutation (filter (fun x => existsb (Nat.eqb x) range) (l1 ++ l2)) range).
  { apply NoDup_Permutation; auto; [now apply NoDup_filter|]. intros x. rewrite filter_In, existsb_exists. split.
    - intros (_ & y & Iy & E). apply Nat.eqb_eq in E. now subst.
    - intros I. split; [now apply Inc|]. exists x. split; auto. apply Nat.eqb_refl. }
  assert (Hp : List.hd hd (drop range l2) = List.hd hd l2).
  { destruct l2 as [|y l2]; auto. cbn in *. destruct (existsb (Nat.eqb y) range) eqn:E; auto. exfalso.
    apply existsb_exists in E as (z & Iz & E). apply Nat.eqb_eq in E. subst z. auto. }
  assert (Sp : sstep hd (SSplice (List.hd hd (drop range l2)) range) (l1 ++ l2, []) (drop range l1 ++ range ++ drop range l2, [])).
  { apply st_splice.
    - rewrite (Pd _ N1) at 1. rewrite Pr, drop_app. perm.
    - change (drop range (l1 ++ l2) = drop range l1 ++ drop range l2). apply drop_app. }
  rewrite Hp in Sp. assert (W := move_effect R Sq Nt Sp eq_refl). cbn [exec_rop] in W.
  destruct (own _ s); auto. tauto.
Qed.
Theorem C40_reverse s lk nh ls l : reachable s lk nh -> sequences s = Some ls -> nth_error ls (length cs1) = Some l ->
  match own r_reverse s with
  | Ret _ s' => memory s' = memory s /\ calls s' = calls s /\ sequences s' = Some (set_nth (length cs1) (rev l) ls) /\ reachable s' lk nh
  | _ => False
  end.
Proof.
  intros R Sq Nt. assert (W := move_effect R Sq Nt (st_reverse hd l []) eq_refl). cbn [exec_rop] in W.
  destruct (own _ s); auto. tauto.
Qed.

(** ** C39 *)
Lemma wp_ret_inv S A (m : M S A) Q E (r : S) a r' : wp m Q E r -> m r = Ret a r' -> Q a r'.
Proof. unfold wp. intros H Eq. now rewrite Eq in H. Qed.
Lemma sync_run (L : Layer V) A (m : RM A) (st : rst * St L) :
  match sync L m st with
  | Ret r st' => m (adv_tk (fst st) (tk (bget L (snd st)))) = Ret r (fst st')
  | Exn st' => m (adv_tk (fst st) (tk (bget L (snd st)))) = Exn (fst st')
  | UB => m (adv_tk (fst st) (tk (bget L (snd st)))) = UB
  end.
Proof. unfold sync. now destruct (m (adv_tk (fst st) (tk (bget L (snd st))))). Qed.
Lemma index_sync A (m : rst * St sup -> RM A) (m0 : M (rst * St sup) A) s : (forall st, m0 st = sync sup (m st) st) -> exists n,
  match of_index m0 s with
  | Ret r s' => m (this_of s) (adv_tk (array s) n) = Ret r (array s')
  | Exn s' => m (this_of s) (adv_tk (array s) n) = Exn (array s')
  | UB => m (this_of s) (adv_tk (array s) n) = UB
  end.
Proof.
  intros E0. exists (tk (bget sup (snd (this_of s)))). assert (E := index_run throws pick hd cs1 cs2 this m0 s).
  assert (Y := sync_run sup (m (this_of s)) (this_of s)). rewrite <- (E0 (this_of s)) in Y.
  destruct (of_index m0 s) as [r s'|s'|]; rewrite E in Y; exact Y.
Qed.
(** at any time the array has room for the elements and the pointer of end(), see [vector];
    accesses outside of it are undefined behaviour, which [C03_defined] excludes *)
Theorem C39_capacity s lk nh l : reachable s lk nh -> holds s l -> length l <= capacity s /\ forall i, i <= capacity s -> slot (array s) (rbs (array s) + i) <> None.
Proof.
  intros R H. destruct (vector_of _ _ (open_rnd R H)) as [Sz Cp _ _ Al]. split; [unfold capacity; lia|exact Al].
Qed.
Theorem C39_reserve s lk nh ls l n : reachable s lk nh -> sequences s = Some ls -> nth_error ls (length cs1) = Some l ->
  match op_index (Reserve _ n) s with
  | Ret _ s' => capacity s' = Nat.max (capacity s) n /\ sequences s' = Some ls /\ memory s' = memory s /\ reachable s' lk nh
  | Exn s' => capacity s' = capacity s /\ sequences s' = Some ls /\ memory s' = memory s /\ reachable s' lk nh
  | UB => False
  end.
Proof.
  intros R Sq Nt. assert (W := index_effect dv cs1 cs2 this St_ (Reserve _ n) R Sq Nt I). unfold op_index.
  assert (A : arr (array s) (l ++ [hd])) by (eapply open_rnd; [exact R|exists ls; auto]).
  assert (E := run_of_index throws pick hd cs1 cs2 this (Reserve _ n) s).
  destruct (@index_sync unit (fun _ => reserve throws n) (irun throws pick hd this sup (Reserve _ n)) s (fun st => eq_refl)) as (k & X).
  assert (Y := reserve_ok throws n (arr_tk k A)). unfold wp in Y. rewrite <- E in X. clear E.
  destruct (run_index throws pick hd all (length cs1, Reserve _ n) s) as [u s'|s'|]; auto.
  - destruct W as (R' & M & _ & _ & l' & El & Sq' & _). cbn in El. subst l'. rewrite set_nth_id in Sq' by auto.
    rewrite X in Y. destruct Y as (_ & _ & C). splits; auto.
  - destruct W as (R' & M & _ & l' & El & Sq' & _). cbn in El. subst l'. rewrite set_nth_id in Sq' by auto.
    rewrite X in Y. destruct Y as (_ & C). splits; auto. unfold capacity. rewrite C. reflexivity.
Qed.
Theorem C39_shrink_to_fit s lk nh ls l : reachable s lk nh -> sequences s = Some ls -> nth_error ls (length cs1) = Some l ->
  match op_index (Shrink _) s with
  | Ret _ s' => capacity s' = length l /\ sequences s' = Some ls /\ memory s' = memory s /\ reachable s' lk nh
  | Exn s' => capacity s' = capacity s /\ sequences s' = Some ls /\ memory s' = memory s /\ reachable s' lk nh
  | UB => False
  end.
Proof.
  intros R Sq Nt. assert (W := index_effect dv cs1 cs2 this St_ (Shrink _) R Sq Nt I). unfold op_index.
  assert (A : arr (array s) (l ++ [hd])) by (eapply open_rnd; [exact R|exists ls; auto]).
  assert (E := run_of_index throws pick hd cs1 cs2 this (Shrink _) s).
  destruct (@index_sync unit (fun _ => shrink_to_fit throws) (irun throws pick hd this sup (Shrink _)) s (fun st => eq_refl)) as (k & X).
  assert (Y := shrink_to_fit_ok throws (arr_tk k A)). unfold wp in Y. rewrite <- E in X. clear E.
  destruct (run_index throws pick hd all (length cs1, Shrink _) s) as [u s'|s'|]; auto.
  - destruct W as (R' & M & _ & _ & l' & El & Sq' & _). cbn in El. subst l'. rewrite set_nth_id in Sq' by auto.
    rewrite X in Y. destruct Y as (_ & Sm & C). splits; auto. unfold capacity. rewrite C.
    destruct (vector_of _ _ (open_rnd R' (ex_intro _ ls (conj Sq' Nt)))) as [Sz _ _ _ _]. exact Sz.
  - destruct W as (R' & M & _ & l' & El & Sq' & _). cbn in El. subst l'. rewrite set_nth_id in Sq' by auto.
    rewrite X in Y. destruct Y as (_ & C). splits; auto. unfold capacity. rewrite C. reflexivity.
Qed.

(** ** C40 *)
Lemma last_distance s lk nh k d : reachable s lk nh -> holds s (k ++ d) -> own (distance (List.hd hd d) hd) s = Ret (Z.of_nat (length d)) s.
Proof.
  intros R H. assert (D := @C37_distance s lk nh _ (length k) (length (k ++ d)) R H).
  rewrite (@nth_overflow _ (k ++ d) (length (k ++ d))) in D by lia. rewrite app_nth2, Nat.sub_diag in D by lia.
  replace (nth 0 d hd) with (List.hd hd d) in D by now destruct d.
  rewrite D by (rewrite app_length; lia). f_equal. rewrite app_length. lia.
Qed.
Lemma members s lk nh ls l l' y : reachable s lk nh -> sequences s = Some ls -> In l ls -> In l' ls -> In y l' -> In y l.
Proof.
  intros R Sq I1 I2 Iy. destruct (C03_consistent dv St_ R) as (ls' & Sn). assert (ls' = ls) by (rewrite (sn_seq Sn) in Sq; congruence). subst ls'.
  assert (P := sn_perm Sn). rewrite Forall_forall in P. destruct (P _ I1) as (_ & P1). destruct (P _ I2) as (_ & P2).
  eapply Permutation_in; [symmetry; exact P1|]. eapply Permutation_in; eauto.
Qed.
Lemma drop_sub (k d l : list node) : NoDup l -> Permutation l (k ++ d) -> subseq k l -> drop d l = k.
Proof.
  intros N P S. etransitivity; [|exact (subseq_filter S N)]. unfold drop. apply filter_ext_in. intros x Ix.
  assert (Np : NoDup (k ++ d)) by (eapply NoDup_perm; eauto). apply NoDup_app_iff in Np as (_ & _ & Nd).
  assert (Ikd := Permutation_in x P Ix). destruct (existsb (Nat.eqb x) d) eqn:E1, (existsb (Nat.eqb x) k) eqn:E2; auto; exfalso.
  - apply existsb_exists in E1 as (y & Iy & E1). apply Nat.eqb_eq in E1. subst y.
    apply existsb_exists in E2 as (y & Iy2 & E2). apply Nat.eqb_eq in E2. subst y. eapply Nd; eauto.
  - assert (Y : forall m, existsb (Nat.eqb x) m = false -> ~ In x m).
    { intros m F J. assert (existsb (Nat.eqb x) m = true) by (apply existsb_exists; exists x; split; auto; apply Nat.eqb_refl). congruence. }
    apply in_app_or in Ikd as [J|J]; [exact (Y _ E2 J)|exact (Y _ E1 J)].
Qed.
Lemma filter_sub (f : node -> bool) l : subseq (filter f l) l.
Proof. induction l as [|x l IH]; cbn; [constructor|]. destruct (f x); now constructor. Qed.
(** remove and unique up to the elements to be erased being last *)
Lemma gather (m0 : M (rst * St sup) node) (m : rst * St sup -> RM node) o s lk nh ls l : (forall st, m0 st = sync sup (m st) st) ->
  irun throws pick hd this sup o = (m0 ;;; ret tt) ->
  reachable s lk nh -> sequences s = Some ls -> nth_error ls (length cs1) = Some l -> iallowed hd this l o ->
  exists n, match of_index m0 s with
  | Ret x s' => m (this_of s) (adv_tk (array s) n) = Ret x (array s') /\ reachable s' lk nh /\ memory s' = memory s /\
      exists l', ieffect hd this (value_of s) o l l' /\ sequences s' = Some (set_nth (length cs1) l' ls) /\ holds s' l'
  | Exn s' => reachable s' lk nh /\ memory s' = memory s /\
      exists l', ieffect_exn o l l' /\ sequences s' = Some (set_nth (length cs1) l' ls)
  | UB => False
  end.
Proof.
  intros E0 E1 R Sq Nt Al. assert (W := index_effect dv cs1 cs2 this St_ o R Sq Nt Al).
  destruct (@index_sync _ m m0 s E0) as (n & X). exists n.
  assert (E := run_of_index throws pick hd cs1 cs2 this o s). rewrite E1 in E.
  assert (E2 : of_index (m0 ;;; ret tt) s = match of_index m0 s with Ret _ s' => Ret tt s' | Exn s' => Exn s' | UB => UB end).
  { assert (Y1 := of_index_eq throws pick hd cs1 cs2 this (m0 ;;; ret tt) s). assert (Y2 := of_index_eq throws pick hd cs1 cs2 this m0 s).
    unfold bind in *. destruct (m0 (this_of s)); rewrite Y1, Y2; reflexivity. }
  rewrite E2 in E. rewrite E in W. clear E E2.
  destruct (of_index m0 s) as [x s'|s'|]; auto.
  - destruct W as (R' & M & _ & _ & W). auto.
  - destruct W as (R' & M & _ & l' & W1 & W2 & _). eauto.
Qed.
Lemma this_val s y : val dv (bget sup (snd (this_of s))) y = value_of s y.
Proof. exact (f_equal (fun b => val dv b y) (down_bget throws pick hd (mem_world V) (this :: cs2) cs1 s)). Qed.
Lemma this_live s y : live (bget box s) y -> live (bget sup (snd (this_of s))) y.
Proof. intros H. exact (eq_ind_r (fun b => live b y) H (down_bget throws pick hd (mem_world V) (this :: cs2) cs1 s)). Qed.
Theorem C40_remove_if pred s lk nh ls l : reachable s lk nh -> sequences s = Some ls -> nth_error ls (length cs1) = Some l ->
  let out x := pred (value_of s x) in
  match remove_if pred s with
  | Ret _ s' => sequences s' = Some (map (filter (fun x => negb (out x))) ls) /\
      (forall x, In x l -> look (memory s') x = if out x then None else look (memory s) x) /\ exists lk', reachable s' lk' nh
  | Exn s' => (* every element is still there *)
      memory s' = memory s /\ reachable s' lk nh /\ exists l', Permutation l l' /\ sequences s' = Some (set_nth (length cs1) l' ls)
  | UB => False
  end.
Proof.
  intros R Sq Nt out. unfold remove_if, bind.
  destruct (@gather (n_remove throws sup pred) (fun st => ptr_remove throws (on1 V (vals (bget sup (snd st))) pred)) (RemoveRnd pred) s lk nh ls l) as (n & X); auto.
  { exact I. }
  assert (H : holds s l) by (exists ls; auto). assert (A := open_rnd R H).
  assert (ND := nodup_this dv St_ R H). inversion ND as [|? ? _ ND']; subst.
  destruct (of_index (n_remove throws sup pred) s) as [x s1|s1|]; auto.
  - destruct X as (X & R1 & M1 & l1 & (d & -> & Pd) & Sq1 & H1).
    assert (Y := ptr_remove_ok throws (on1 V (vals (bget sup (snd (this_of s)))) pred) l hd (arr_tk n A)).
    assert (Y2 := @wp_ret_inv _ _ _ _ _ _ _ _ Y X). destruct Y2 as (_ & _ & d' & A' & Pd' & ->).
    assert (A1 := open_rnd R1 H1). rewrite app_assoc in A'. assert (F := app_inv_tail _ _ _ (arr_fun A1 A')).
    destruct (@open_at V throws pick dv hd cs1 cs2 this St_ s lk nh l R H) as (a & _ & _ & _ & Lv & _).
    destruct (@filter_vals V dv (bget sup (snd (this_of s))) pred l) as (E1 & E2).
    { intros y Iy. exact (this_live _ (Lv y Iy)). }
    rewrite E2 in F. assert (d = d').
    { replace (filter (fun x => negb (pred (val dv (bget sup (snd (this_of s))) x))) l) with (filter (fun x => negb (pred (value_of s x))) l) in F
        by (apply filter_ext; intros y; now rewrite this_val). now apply app_inv_head in F. }
    subst d'. rewrite (last_distance _ _ R1 H1).
    assert (Ed : forall x, In x d <-> In x l /\ out x = true).
    { intros y. split; intros J.
      - eapply Permutation_in in J; [|exact Pd]. now apply filter_In in J.
      - eapply Permutation_in; [symmetry; exact Pd|]. now apply filter_In. }
    assert (Pl : Permutation l (filter (fun x => negb (pred (value_of s x))) l ++ d)).
    { rewrite Pd. clear. induction l as [|y l IH]; cbn; auto. destruct (pred (value_of s y)); cbn.
      - rewrite IH at 1. perm.
      - now constructor. }
    assert (Dk := @drop_sub _ _ _ ND' Pl (filter_sub _ _)).
    assert (W := @sweep _ _ _ _ _ _ _ _ R Sq Nt R1 Sq1 M1 Dk). destruct (pops_z _ s1) as [u s'|s'|]; [|easy|easy].
    destruct W as (R' & H' & Sq' & G1 & G2). splits; auto.
    + rewrite Sq'. f_equal. apply map_ext_in. intros li Ili. unfold drop. apply filter_ext_in. intros y Iy.
      assert (Il : In y l).
      { exact (@members s lk nh ls l li y R Sq (nth_error_In _ _ Nt) Ili Iy). }
      f_equal. destruct (existsb (Nat.eqb y) d) eqn:E; symmetry.
      * apply existsb_exists in E as (z & Iz & E). apply Nat.eqb_eq in E. subst z. now apply Ed.
      * destruct (out y) eqn:O; auto. exfalso. assert (existsb (Nat.eqb y) d = true); [|congruence].
        apply existsb_exists. exists y. split; [now apply Ed|apply Nat.eqb_refl].
    + intros y Iy. destruct (out y) eqn:O; [apply G1|apply G2]; rewrite Ed; [auto|intros (_ & O'); congruence].
  - destruct X as (R1 & M1 & l1 & P & Sq1). splits; eauto.
Qed.
(** an element is erased if [pred kept x], [kept] being the closest element before [x] which is not erased *)
Theorem C40_unique pred s lk nh ls l : reachable s lk nh -> sequences s = Some ls -> nth_error ls (length cs1) = Some l ->
  let kept := uniq (fun x y => pred (value_of s y) (value_of s x)) l in
  match unique pred s with
  | Ret _ s' => holds s' kept /\ sequences s' = Some (map (filter (fun x => existsb (Nat.eqb x) kept)) ls) /\
      (forall x, In x kept -> look (memory s') x = look (memory s) x) /\
      (forall x, In x l -> ~ In x kept -> look (memory s') x = None) /\ exists lk', reachable s' lk' nh
  | Exn s' => (* every element is still there *)
      memory s' = memory s /\ reachable s' lk nh /\ exists l', Permutation l l' /\ sequences s' = Some (set_nth (length cs1) l' ls)
  | UB => False
  end.
Proof.
  intros R Sq Nt kept. unfold unique, bind.
  destruct (@gather (n_unique throws sup pred) (fun st => ptr_unique throws (on2 V (vals (bget sup (snd st))) pred)) (UniqueRnd pred) s lk nh ls l) as (n & X); auto.
  { exact I. }
  assert (H : holds s l) by (exists ls; auto). assert (A := open_rnd R H).
  assert (ND := nodup_this dv St_ R H). inversion ND as [|? ? _ ND']; subst.
  destruct (of_index (n_unique throws sup pred) s) as [x s1|s1|]; auto.
  - destruct X as (X & R1 & M1 & l1 & (d & -> & Pl) & Sq1 & H1). rewrite firsts_of_uniq in *. fold kept in Pl, Sq1, H1.
    assert (Y := ptr_unique_ok throws (on2 V (vals (bget sup (snd (this_of s)))) pred) l hd (arr_tk n A)).
    assert (Y2 := @wp_ret_inv _ _ _ _ _ _ _ _ Y X). destruct Y2 as (_ & _ & d' & A' & _ & ->).
    assert (A1 := open_rnd R1 H1). rewrite app_assoc in A'. assert (F := app_inv_tail _ _ _ (arr_fun A1 A')).
    destruct (@open_at V throws pick dv hd cs1 cs2 this St_ s lk nh l R H) as (a & _ & _ & _ & Lv & _).
    assert (E1 : firsts_of (on2 V (vals (bget sup (snd (this_of s)))) pred) l = kept).
    { unfold kept. rewrite <- (firsts_of_uniq (fun x y => pred (value_of s x) (value_of s y))). destruct l as [|m l0]; auto.
      cbn [firsts_of]. rewrite (@firsts_vals V dv (bget sup (snd (this_of s))) pred l0 m); [|intros y Iy; exact (this_live _ (Lv y Iy))].
      assert (Ext : forall (f g : node -> node -> bool), (forall x y, f x y = g x y) -> forall l m, firsts f m l = firsts g m l).
      { intros f g E l. induction l as [|y l IH]; intros m1; cbn; auto. rewrite E. destruct (g m1 y); now rewrite ?IH. }
      apply Ext. intros y z. now rewrite !this_val. }
    rewrite E1 in F. apply app_inv_head in F. subst d'. rewrite (last_distance _ _ R1 H1).
    assert (Dk := @drop_sub _ _ _ ND' Pl (uniq_subseq _ _)).
    assert (W := @sweep _ _ _ _ _ _ _ _ R Sq Nt R1 Sq1 M1 Dk). destruct (pops_z _ s1) as [u s'|s'|]; [|easy|easy].
    destruct W as (R' & H' & Sq' & G1 & G2).
    assert (Np : NoDup (kept ++ d)) by (eapply NoDup_perm; eauto). apply NoDup_app_iff in Np as (_ & _ & Nd).
    assert (Or : forall y, In y l -> In y kept \/ In y d) by (intros y Iy; apply in_app_or; eapply Permutation_in; eauto).
    splits; auto.
    + rewrite Sq'. f_equal. apply map_ext_in. intros li Ili. unfold drop. apply filter_ext_in. intros y Iy.
      assert (Il : In y l) by exact (@members s lk nh ls l li y R Sq (nth_error_In _ _ Nt) Ili Iy).
      destruct (existsb (Nat.eqb y) d) eqn:E, (existsb (Nat.eqb y) kept) eqn:E'; auto; exfalso.
      * apply existsb_exists in E as (z & Iz & E). apply Nat.eqb_eq in E. subst z.
        apply existsb_exists in E' as (z & Iz' & E). apply Nat.eqb_eq in E. subst z. eapply Nd; eauto.
      * clear Y. assert (Y : forall m, existsb (Nat.eqb y) m = false -> ~ In y m).
        { intros m F J. assert (existsb (Nat.eqb y) m = true) by (apply existsb_exists; exists y; split; auto; apply Nat.eqb_refl). congruence. }
        destruct (Or y Il) as [J|J]; [exact (Y _ E' J)|exact (Y _ E J)].
    + intros y Iy Nk. apply G1. destruct (Or y Iy); [easy|auto].
  - destruct X as (R1 & M1 & l1 & P & Sq1). splits; eauto.
Qed.
(** sort, assuming of std::stable_sort what the standard says *)
Definition stable_sort (lt : V -> V -> bool) s (ssort : list node -> option (list node)) : Prop :=
  forall l l', ssort l = Some l' -> Permutation l l' /\ sorted_by (fun x => Some (value_of s x)) lt l' /\
    stable_of V (fun x => Some (value_of s x)) lt l l'.
Theorem C40_sort lt ssort s lk nh ls l : reachable s lk nh -> sequences s = Some ls -> nth_error ls (length cs1) = Some l ->
  stable_sort lt s ssort ->
  match op_index (SortRnd _ ssort) s with
  | Ret _ s' => memory s' = memory s /\ reachable s' lk nh /\
      exists l', sequences s' = Some (set_nth (length cs1) l' ls) /\ Permutation l l' /\
        sorted_by (fun x => Some (value_of s x)) lt l' /\ stable_of V (fun x => Some (value_of s x)) lt l l'
  | Exn s' => memory s' = memory s /\ reachable s' lk nh /\ sequences s' = Some ls
  | UB => False
  end.
Proof.
  intros R Sq Nt St. assert (Al : iallowed hd this l (SortRnd _ ssort)) by (intros l' E; now apply St).
  assert (W := index_effect dv cs1 cs2 this St_ (SortRnd _ ssort) R Sq Nt Al). unfold op_index.
  destruct (run_index throws pick hd all (length cs1, SortRnd _ ssort) s) as [u s'|s'|]; auto.
  - destruct W as (R' & M & _ & _ & l' & El & Sq' & _). splits; auto. exists l'. split; auto. destruct El as [(Le & ->)|El].
    + splits; auto; [|easy]. unfold sorted_by. destruct l as [|x [|y l]]; [constructor|repeat constructor|cbn in Le; lia].
    + now apply St.
  - destruct W as (R' & M & _ & l' & El & Sq' & _). cbn in El. subst l'. rewrite set_nth_id in Sq' by auto. auto.
Qed.
(** merge of two sorted runs, std::inplace_merge *)
Theorem C40_merge lt s lk nh ls l1 l2 : reachable s lk nh -> sequences s = Some ls -> nth_error ls (length cs1) = Some (l1 ++ l2) ->
  let v x := Some (value_of s x) in
  match op_index (MergeRnd lt (length l1)) s with
  | Ret _ s' => memory s' = memory s /\ reachable s' lk nh /\
      exists l', sequences s' = Some (set_nth (length cs1) l' ls) /\ Permutation (l1 ++ l2) l' /\
        (strict_weak_order lt -> sorted_by v lt l1 -> sorted_by v lt l2 -> sorted_by v lt l' /\ stable_of V v lt (l1 ++ l2) l')
  | Exn s' => memory s' = memory s /\ reachable s' lk nh /\ sequences s' = Some ls
  | UB => False
  end.
Proof.
  intros R Sq Nt v. assert (Al : iallowed hd this (l1 ++ l2) (MergeRnd lt (length l1))) by (cbn; rewrite app_length; lia).
  assert (W := index_effect dv cs1 cs2 this St_ (MergeRnd lt (length l1)) R Sq Nt Al). unfold op_index.
  destruct (run_index throws pick hd all (length cs1, MergeRnd lt (length l1)) s) as [u s'|s'|]; auto.
  - destruct W as (R' & M & _ & _ & l' & El & Sq' & _). splits; auto. exists l'. split; auto.
    cbn in El. rewrite firstn_app, Nat.sub_diag, firstn_all, app_nil_r, skipn_app, Nat.sub_diag, skipn_all in El. cbn [app skipn] in El.
    subst l'. split; [symmetry; apply merged_perm|]. intros SW S1 S2.
    assert (AV : forall k, all_vals v k) by (intros k; apply Forall_forall; intros y _; eexists; reflexivity).
    unfold merged. change (fun x y => lt (value_of s x) (value_of s y)) with (on2 V v lt). split.
    + apply sorted_leN. apply mergeA_sorted; auto; now apply sorted_leN.
    + assert (X := @mergeA_stable V v (fun _ => true) lt SW l1 l2 (AV l1)). 
      replace (filter (fun _ => true) l2) with l2 in X by (clear; induction l2; cbn; congruence).
      apply X. now apply sorted_leN.
  - destruct W as (R' & M & _ & l' & El & Sq' & _). cbn in El. subst l'. rewrite set_nth_id in Sq' by auto. auto.
Qed.
End Props.

(** ** concrete cases: [some_state], whose random access index is [2;3;4;5] with values 6 8 5 7; the call
    to user code number 23 throws and 18 were made *)
Definition three : list (code nat) := [by_id true; Sequenced nat 0 0; by_half].
Example some_this : Focus.all three [] (this nat 0) = four.
Proof. reflexivity. Qed.
Example some_hyp : reachable at23 next_node 1 (Focus.all three [] (this nat 0)) some_state [5; 4; 3; 2] [] /\
  setting next_node 1 (Focus.all three [] (this nat 0)) /\
  (exists ls, sequences at23 next_node 1 (Focus.all three [] (this nat 0)) some_state = Some ls /\ nth_error ls (length three) = Some [2; 3; 4; 5]) /\
  capacity at23 next_node 1 three [] 0 some_state = 15.
Proof.
  split; [exact some_reach|]. split; [exact four_ok|]. split; [|vm_compute; reflexivity].
  eexists. split; [exact some_sequences|reflexivity].
Qed.
Notation some_op f := (f nat at23 next_node 1 three [] 0).
Definition mine {A} (o : out (St some_box) A) : nat * option (list node) :=
  let (n, ls) := seen o in (n, match ls with Some ls => nth_error ls 3 | None => None end).
Definition after (o : out (St some_box) unit) : nat :=
  match o with Ret _ s | Exn s => some_op capacity s | UB => 0 end.
(** the same without exceptions, then with one in the insertion of the third value *)
Definition four_at (thr : nat -> bool) : St (box thr next_node 1 four) :=
  fst (play thr next_node 1 four (map (fun v => Insert _ v None) [6; 8; 5; 7]) (start thr next_node 1 four 0) [] []).
Definition list_at (thr : nat -> bool) {A : Type} (o : out (St (box thr next_node 1 four)) A) : nat * option (list node) :=
  let at3 s := match sequences thr next_node 1 four s with Some ls => nth_error ls 3 | None => None end in
  match o with Ret _ s => (0, at3 s) | Exn s => (1, at3 s) | UB => (2, None) end.
Notation never := (fun _ : nat => false).
Notation late := (fun n : nat => n =? 35).
Definition read {S A} (o : out S A) : nat * option A := match o with Ret a _ => (0, Some a) | Exn _ => (1, None) | UB => (2, None) end.
Example some_inserts :
  @list_at never _ (insert_at never next_node 1 three [] 0 4 9 (four_at never)) = (0, Some [2; 3; 6; 4; 5]) /\
  @list_at never _ (insert_at never next_node 1 three [] 0 1 9 (four_at never)) = (0, Some [2; 3; 4; 5; 6]) /\
  @list_at never _ (insert_at never next_node 1 three [] 0 4 8 (four_at never)) = (0, Some [2; 3; 4; 5]) /\
  @list_at never _ (insert_all never next_node 1 three [] 0 4 [9; 6; 10] (four_at never)) = (0, Some [2; 3; 6; 7; 4; 5]) /\
  @list_at late _ (insert_all late next_node 1 three [] 0 4 [9; 6; 10] (four_at late)) = (1, Some [2; 3; 6; 4; 5]) /\
  @list_at never _ (push_front never next_node 1 three [] 0 9 (four_at never)) = (0, Some [6; 2; 3; 4; 5]) /\
  @list_at never _ (assign never next_node 1 three [] 0 [9; 9; 10] (four_at never)) = (0, Some [2; 3]) /\
  @list_at never _ (resize never next_node 1 three [] 0 7 9 (four_at never)) = (0, Some [2; 3; 4; 5; 6]) /\
  @list_at never _ (resize never next_node 1 three [] 0 1 9 (four_at never)) = (0, Some [2]) /\
  read (at_ never next_node 1 three [] 0 2 (four_at never)) = (0, Some 5) /\
  read (at_ never next_node 1 three [] 0 4 (four_at never)) = (1, None).
Proof. vm_compute. auto 20. Qed.
Example some_erasures :
  seen (some_op erase_at 4 some_state) = (0, Some [[2; 5; 3]; [2; 3; 5]; [2; 5; 3]; [2; 3; 5]]) /\
  seen (some_op pop_front some_state) = (0, Some [[4; 5; 3]; [3; 4; 5]; [4; 5; 3]; [3; 4; 5]]) /\
  seen (some_op pop_back some_state) = (0, Some [[4; 2; 3]; [2; 3; 4]; [4; 2; 3]; [2; 3; 4]]) /\
  seen (some_op erase_range 3 5 some_state) = (0, Some [[2; 5]; [2; 5]; [2; 5]; [2; 5]]) /\
  seen (some_op erase_range 3 3 some_state) = (0, Some [[4; 2; 5; 3]; [2; 3; 4; 5]; [4; 2; 5; 3]; [2; 3; 4; 5]]) /\
  seen (some_op remove_if (fun v => Nat.even v) some_state) = (0, Some [[4; 5]; [4; 5]; [4; 5]; [4; 5]]) /\
  seen (some_op unique (fun v w => Bool.eqb (Nat.even v) (Nat.even w)) some_state) = (0, Some [[4; 2]; [2; 4]; [4; 2]; [2; 4]]).
Proof. vm_compute. auto 20. Qed.
Example some_moves :
  seen (own at23 next_node 1 three [] 0 (r_relocate 2 4) some_state) = (0, Some [[4; 2; 5; 3]; [2; 3; 4; 5]; [4; 2; 5; 3]; [4; 2; 3; 5]]) /\
  mine (own at23 next_node 1 three [] 0 (r_relocate 1 2) some_state) = (0, Some [3; 4; 5; 2]) /\
  mine (own at23 next_node 1 three [] 0 (r_relocate_range 2 3 5) some_state) = (0, Some [3; 4; 2; 5]) /\
  mine (own at23 next_node 1 three [] 0 (r_rearrange [5; 3; 2; 4]) some_state) = (0, Some [5; 3; 2; 4]) /\
  mine (own at23 next_node 1 three [] 0 (internal_splice 4 [5; 2]) some_state) = (0, Some [3; 5; 2; 4]) /\
  mine (own at23 next_node 1 three [] 0 r_reverse some_state) = (0, Some [5; 4; 3; 2]) /\
  mine (some_op op_index (MergeRnd Nat.ltb 2) some_state) = (0, Some [4; 2; 5; 3]) /\
  mine (some_op op_index (SortRnd _ (fun _ => Some [4; 2; 5; 3])) some_state) = (0, Some [4; 2; 5; 3]) /\
  after (some_op op_index (Reserve _ 40) some_state) = 40 /\ after (some_op op_index (Shrink _) some_state) = 4.
Proof. vm_compute. auto 20. Qed.

Print Assumptions C36_rearrange.
Print Assumptions C37_vector.
Print Assumptions C37_begin.
Print Assumptions C37_push_front.
Print Assumptions C37_pop_front.
Print Assumptions C37_pop_back.
Print Assumptions C37_assign.
Print Assumptions C37_resize.
Print Assumptions C37_at.
Print Assumptions C37_nth.
Print Assumptions C37_advance.
Print Assumptions C37_distance.
Print Assumptions C37_next.
Print Assumptions C37_push_back.
Print Assumptions C37_insert.
Print Assumptions C37_insert_range.
Print Assumptions C37_erase.
Print Assumptions C37_erase_range.
Print Assumptions C37_clear.
Print Assumptions C38_relocate.
Print Assumptions C38_relocate_self.
Print Assumptions C38_relocate_range.
Print Assumptions C39_capacity.
Print Assumptions C39_reserve.
Print Assumptions C39_shrink_to_fit.
Print Assumptions C40_remove_if.
Print Assumptions C40_unique.
Print Assumptions C40_sort.
Print Assumptions C40_merge.
Print Assumptions C40_reverse.
Print Assumptions C41_splice.
