(** C55: comparison of ordered, sequenced and random access indices.
    Sources: /repo/include/boost/multi_index/detail/ord_index_impl.hpp:1597-1697,
    sequenced_index.hpp:1136-1200, random_access_index.hpp:1240-1304.
    The operators of the three kinds of indices are the same. *)
From Verif Require Import Prelude Layer LayerBase Stack View Container ContOk Iops History ContSpec Client Transfer Conv Pair PairProps.
From Verif Require ContEx.
Set Implicit Arguments.

(** ** Specification *)
Section Spec.
Variable V : Type.
(** elements which are == are in the same places *)
Definition all_equal (eq : V -> V -> bool) : list V -> list V -> Prop := Forall2 (fun a b => eq a b = true).
(** after a common part, up to equivalence, [xs] ends and [ys] does not, or goes on with a lesser element *)
Definition lex_less (lt : V -> V -> bool) (xs ys : list V) : Prop :=
  exists p q xs' ys', xs = p ++ xs' /\ ys = q ++ ys' /\ Forall2 (fun a b => lt a b = false /\ lt b a = false) p q /\
    match xs', ys' with [], _ :: _ => True | a :: _, b :: _ => lt a b = true | _, [] => False end.
Section Lex.
Variable lt : V -> V -> bool.
Notation less := (lex_less lt).
Lemma less_nil xs : ~ less xs [].
Proof. intros (p & q & xs' & ys' & _ & E & _ & H). destruct q, ys'; try discriminate. now destruct xs'. Qed.
Lemma nil_less y ys : less [] (y :: ys).
Proof. exists [], [], [], (y :: ys). splits; auto. Qed.
Lemma less_cons x xs y ys : less (x :: xs) (y :: ys) <-> lt x y = true \/ (lt x y = false /\ lt y x = false /\ less xs ys).
Proof.
  split.
  - intros (p & q & xs' & ys' & E1 & E2 & F & H). destruct F as [|a b p q (F1 & F2) F]; cbn in E1, E2.
    + subst. now left.
    + injection E1 as <- E1. injection E2 as <- E2. right. splits; auto. exists p, q, xs', ys'. auto.
  - intros [L|(L1 & L2 & p & q & xs' & ys' & -> & -> & F & H)].
    + exists [], [], (x :: xs), (y :: ys). splits; auto.
    + exists (x :: p), (y :: q), xs', ys'. splits; auto.
Qed.
(** for a strict weak order it is one *)
Hypothesis irr : forall a, lt a a = false.
Hypothesis tra : forall a b c, lt a b = true -> lt b c = true -> lt a c = true.
Hypothesis inc : forall a b c, lt a b = false -> lt b a = false -> lt b c = false -> lt c b = false -> lt a c = false /\ lt c a = false.
Lemma less_irr xs : ~ less xs xs.
Proof.
  induction xs as [|x xs IH]; [apply less_nil|]. rewrite less_cons. intros [E|(_ & _ & E)]; auto. rewrite irr in E. discriminate.
Qed.
Lemma lt_asym a b : lt a b = true -> lt b a = false.
Proof. intros E. apply not_true_iff_false. intros F. assert (X := tra E F). now rewrite irr in X. Qed.
Lemma lt_inc_r a b c : lt a b = true -> lt b c = false -> lt c b = false -> lt a c = true.
Proof.
  intros E F G. destruct (lt a c) eqn:H; auto. destruct (lt c a) eqn:K.
  - rewrite (tra K E) in G. discriminate.
  - destruct (inc H K G F) as (X & _). congruence.
Qed.
Lemma lt_inc_l a b c : lt a b = false -> lt b a = false -> lt b c = true -> lt a c = true.
Proof.
  intros E F G. destruct (lt a c) eqn:H; auto. destruct (lt c a) eqn:K.
  - rewrite (tra G K) in F. discriminate.
  - destruct (inc F E H K) as (X & _). congruence.
Qed.
Lemma less_trans xs : forall ys zs, less xs ys -> less ys zs -> less xs zs.
Proof.
  induction xs as [|x xs IH]; intros ys zs A B.
  - destruct zs as [|z zs]; [now apply less_nil in B|apply nil_less].
  - destruct ys as [|y ys]; [now apply less_nil in A|]. destruct zs as [|z zs]; [now apply less_nil in B|].
    apply less_cons in A, B. apply less_cons. destruct A as [A|(A1 & A2 & A)], B as [B|(B1 & B2 & B)].
    + left. eauto.
    + left. eapply lt_inc_r; eauto.
    + left. eapply lt_inc_l; eauto.
    + right. destruct (inc A1 A2 B1 B2). splits; auto. eauto.
Qed.
(** neither is less: elements in the same places are equivalent *)
Lemma less_neither xs : forall ys, ~ less xs ys /\ ~ less ys xs <-> Forall2 (fun a b => lt a b = false /\ lt b a = false) xs ys.
Proof.
  induction xs as [|x xs IH]; intros [|y ys].
  - split; auto. intros _. split; apply less_nil.
  - split; [|inversion 1]. intros (N & _). destruct N. apply nil_less.
  - split; [|inversion 1]. intros (_ & N). destruct N. apply nil_less.
  - rewrite !less_cons. specialize (IH ys). split.
    + intros (A & B). destruct (lt x y) eqn:E; [tauto|]. destruct (lt y x) eqn:F; [tauto|]. constructor; auto. apply IH. tauto.
    + inversion 1 as [|? ? ? ? (E & F) G]; subst. rewrite E, F. apply IH in G. split; (intros [X|X]; [discriminate|tauto]).
Qed.
End Lex.
End Spec.

Section Compare.
Variable V : Type.
Variable throws : nat -> bool.
Variable pick : list node -> node.
Variable dv : V.
(** x is index number [i] of the first container, y index number [j] of the second; the elements have the same type *)
Variables (hA hB : node) (csA csB : list (code V)) (i j : nat).
Notation boxA := (box throws pick hA csA).
Notation boxB := (box throws pick hB csB).
Notation state := (St boxA * St boxB)%type.
Notation seqA p := (@sequences V throws pick hA csA (fst p)).
Notation seqB p := (@sequences V throws pick hB csB (snd p)).
Notation value_of p := (@value_of V throws pick dv hA csA (fst p)).
Notation memory p := (@memory V throws pick hA csA (fst p)).
Notation calls p := (@calls V throws pick hA csA (fst p)).
Notation reach2 := (@reach2 V throws pick hA hB csA csB).
Notation setting2 := (setting2 pick hA hB csA csB).
Notation on_fst := (@Pair.on_src V throws pick hA hB csA csB).
Implicit Types (p : state) (la lb nh l : list node).

(** ** Model *)
(** an operation of the second container alone *)
Definition on_snd {A} (m : M (St boxB) A) : M state A :=
  lensM snd (fun d p => (bset boxA (bget boxB d) (fst p), d)) m.
(** begin() of index number [k] *)
Fixpoint begin_at hd (cs : list (code V)) (k : nat) : M (St (stack throws pick hd (mem_world V) cs)) node :=
  match cs return M (St (stack throws pick hd (mem_world V) cs)) node with
  | [] => ub
  | c :: cs => match k with
               | O => i_begin throws pick hd c (stack throws pick hd (mem_world V) cs)
               | S k => lift throws pick hd c (stack throws pick hd (mem_world V) cs) (begin_at hd cs k)
               end
  end.
(** operator== or operator< of the elements, which may throw *)
Definition test (rel : V -> V -> bool) (x y : node) : M state bool :=
  on_fst (v <- basM boxA (value x) ;; w <- basM boxA (value y) ;; basM boxA (tick throws) ;;; ret (rel v w)).
Definition nextA (x : node) : M state node := on_fst (next_at throws pick hA (mem_world V) csA i x).
Definition nextB (x : node) : M state node := on_snd (next_at throws pick hB (mem_world V) csB j x).

(** std::equal: for(;first1!=last1;++first1,++first2)if(!( *first1==*first2))return false; return true; *)
Fixpoint equal (eq : V -> V -> bool) (fuel : nat) (first1 first2 : node) : M state bool :=
  if first1 =? hA then ret true
  else
  match fuel with
  | O => ub
  | S f =>
    b <- test eq first1 first2 ;;
    if b : bool then n1 <- nextA first1 ;; n2 <- nextB first2 ;; equal eq f n1 n2 else ret false
  end.
(** x==y: x.size()==y.size()&&std::equal(x.begin(),x.end(),y.begin()) *)
Definition op_eq (eq : V -> V -> bool) : M state bool :=
  n <- on_fst (size boxA) ;; m <- on_snd (size boxB) ;;
  if n =? m then b1 <- on_fst (begin_at hA csA i) ;; b2 <- on_snd (begin_at hB csB j) ;; equal eq n b1 b2 else ret false.
(** std::lexicographical_compare: for(;first1!=last1&&first2!=last2;++first1,++first2){
    if( *first1<*first2)return true; if( *first2<*first1)return false;} return first1==last1&&first2!=last2; *)
Fixpoint lexicographical_compare (next1 next2 : node -> M state node) (lt : V -> V -> bool) (fuel : nat) (first1 last1 first2 last2 : node) : M state bool :=
  if ((first1 =? last1) || (first2 =? last2))%bool then ret ((first1 =? last1) && negb (first2 =? last2))%bool
  else
  match fuel with
  | O => ub
  | S f =>
    b <- test lt first1 first2 ;;
    if b : bool then ret true
    else
      b <- test lt first2 first1 ;;
      if b : bool then ret false
      else n1 <- next1 first1 ;; n2 <- next2 first2 ;; lexicographical_compare next1 next2 lt f n1 last1 n2 last2
  end.
(** x<y *)
Definition op_lt (lt : V -> V -> bool) : M state bool :=
  n <- on_fst (size boxA) ;; b1 <- on_fst (begin_at hA csA i) ;; b2 <- on_snd (begin_at hB csB j) ;;
  lexicographical_compare nextA nextB lt n b1 hA b2 hB.
(** x>y: y<x *)
Definition op_gt (lt : V -> V -> bool) : M state bool :=
  n <- on_fst (size boxA) ;; b2 <- on_snd (begin_at hB csB j) ;; b1 <- on_fst (begin_at hA csA i) ;;
  lexicographical_compare nextB nextA lt n b2 hB b1 hA.
(** x!=y, x>=y, x<=y *)
Definition op_ne (eq : V -> V -> bool) : M state bool := b <- op_eq eq ;; ret (negb b).
Definition op_ge (lt : V -> V -> bool) : M state bool := b <- op_lt lt ;; ret (negb b).
Definition op_le (lt : V -> V -> bool) : M state bool := b <- op_gt lt ;; ret (negb b).

(** ** Proofs *)
Hypothesis S2_ : setting2.
Notation OA := (box_ok throws dv (s2_a S2_)).
Notation OB := (box_ok throws dv (s2_b S2_)).
Notation S0 h cs := (spec h (fun _ (_ : unit) => False) (fun _ a => a) cs).
Notation rep0 h cs := (srep throws pick h (mem_world V) (fun _ (_ : unit) => True) (fun _ _ => False) (fun _ a => a) cs).

Lemma begin_at_ok h cs : forall k s a l, rep0 h cs s a -> nth_error (els (S0 h cs) a) k = Some l -> begin_at h cs k s = Ret (List.hd h l) s.
Proof.
  induction cs as [|c cs IH]; intros k s a l R E; [destruct k; discriminate|].
  destruct k as [|k]; cbn [begin_at nth_error] in *; cbn in E.
  - injection E as <-. eapply i_begin_ok; exact R.
  - assert (R2 := @below_ok V throws pick h c _ _ _ _ _ R). rewrite lift_eq.
    rewrite (IH k _ (snd a) l R2 E). destruct c, s; reflexivity.
Qed.
(** nothing has changed, but for the number of calls *)
Definition kept p p' la lb nh (lsA lsB : list (list node)) : Prop :=
  reach2 p' la lb nh /\ memory p' = memory p /\ seqA p' = Some lsA /\ seqB p' = Some lsB.
Section At.
Variables (la lb nh : list node) (lsA lsB : list (list node)).
Notation here p := (kept p p la lb nh lsA lsB).
Lemma here_of p : reach2 p la lb nh -> seqA p = Some lsA -> seqB p = Some lsB -> here p.
Proof. unfold kept. auto. Qed.
Lemma kept_here p p' : kept p p' la lb nh lsA lsB -> here p'.
Proof. unfold kept. tauto. Qed.
Lemma kept_trans p p' p'' : kept p p' la lb nh lsA lsB -> kept p' p'' la lb nh lsA lsB -> kept p p'' la lb nh lsA lsB.
Proof. unfold kept. intros (_ & E & _) (? & E' & ? & ?). splits; auto. congruence. Qed.
Lemma kept_val p p' x : kept p p' la lb nh lsA lsB -> value_of p' x = value_of p x.
Proof. intros (_ & E & _). unfold Client.value_of, val. unfold Client.memory in E. now rewrite E. Qed.

Lemma fst_same A (m : M (St boxA) A) p r : here p -> m (fst p) = Ret r (fst p) -> on_fst m p = Ret r p.
Proof.
  intros (R & _) E. unfold Pair.on_src, lensM. rewrite E. destruct (C03_two_consistent dv S2_ R) as (? & ? & Sn).
  rewrite (t_one Sn). rewrite (o_gs OB). now destruct p.
Qed.
Lemma snd_same A (m : M (St boxB) A) p r : here p -> m (snd p) = Ret r (snd p) -> on_snd m p = Ret r p.
Proof.
  intros (R & _) E. unfold on_snd, lensM. rewrite E. destruct (C03_two_consistent dv S2_ R) as (? & ? & Sn).
  rewrite <- (t_one Sn). rewrite (o_gs OA). now destruct p.
Qed.
Lemma opened p : here p -> exists a b, @two V throws pick dv hA hB csA csB p a b la lb nh /\ els (S0 hA csA) a = lsA /\ els (S0 hB csB) b = lsB.
Proof.
  intros (R & _ & QA & QB). destruct (reach2_ok dv S2_ R) as ((a & b & T) & _). exists a, b. split; [exact T|]. destruct T as (E & GA & GB).
  assert (VA := good_views throws pick csA GA). rewrite VA in QA. injection QA as ->.
  assert (VB := good_views throws pick csB GB). rewrite VB in QB. injection QB as ->. auto.
Qed.
Lemma sizes p : here p -> on_fst (size boxA) p = Ret (length la) p /\ on_snd (size boxB) p = Ret (length lb) p.
Proof.
  intros H. destruct H as (R & X). destruct (C03_two_consistent dv S2_ R) as (? & ? & Sn). split.
  - apply fst_same; [split; auto|]. unfold Layer.size. f_equal. exact (t_countA Sn).
  - apply snd_same; [split; auto|]. unfold Layer.size. f_equal. exact (t_countB Sn).
Qed.
Lemma begins p l1 l2 : here p -> nth_error lsA i = Some l1 -> nth_error lsB j = Some l2 ->
  on_fst (begin_at hA csA i) p = Ret (List.hd hA l1) p /\ on_snd (begin_at hB csB j) p = Ret (List.hd hB l2) p.
Proof.
  intros H N1 N2. destruct (opened H) as (a & b & (E & GA & GB) & E1 & E2). rewrite <- E1 in N1. rewrite <- E2 in N2. split.
  - apply (fst_same _ H). eapply begin_at_ok; [exact (g_rep GA)|exact N1].
  - apply (snd_same _ H). eapply begin_at_ok; [exact (g_rep GB)|exact N2].
Qed.
Lemma nextA_ok p l1 l x : here p -> nth_error lsA i = Some (l1 ++ x :: l) -> nextA x p = Ret (List.hd hA l) p.
Proof.
  intros H N1. destruct (opened H) as (a & b & (E & GA & GB) & E1 & _). rewrite <- E1 in N1. apply (fst_same _ H).
  eapply next_at_ok; [exact (g_rep GA)|..|exact N1|reflexivity].
  assert (P := i_perm (g_inv GA)). eapply Forall_impl; [|exact P]. intros q Pq. cbv beta in Pq.
  rewrite (Permutation_length Pq). assert (Gc := g_cnt GA). unfold box in Gc |- *. rewrite Gc. lia.
Qed.
Lemma nextB_ok p l1 l x : here p -> nth_error lsB j = Some (l1 ++ x :: l) -> nextB x p = Ret (List.hd hB l) p.
Proof.
  intros H N1. destruct (opened H) as (a & b & (E & GA & GB) & _ & E1). rewrite <- E1 in N1. apply (snd_same _ H).
  eapply next_at_ok; [exact (g_rep GB)|..|exact N1|reflexivity].
  assert (P := i_perm (g_inv GB)). eapply Forall_impl; [|exact P]. intros q Pq. cbv beta in Pq.
  rewrite (Permutation_length Pq). assert (Gc := g_cnt GB). unfold box in Gc |- *. rewrite Gc. lia.
Qed.
Lemma ends p l1 l2 : here p -> nth_error lsA i = Some l1 -> nth_error lsB j = Some l2 ->
  (NoDup (hA :: l1) /\ incl l1 (la ++ lb) /\ length l1 = length la) /\ (NoDup (hB :: l2) /\ incl l2 (la ++ lb) /\ length l2 = length lb).
Proof.
  intros (R & _ & QA & QB) N1 N2. destruct (C03_two_consistent dv S2_ R) as (kA & kB & Sn).
  rewrite (t_seqA Sn) in QA. injection QA as ->. rewrite (t_seqB Sn) in QB. injection QB as ->.
  assert (D := t_dist Sn). assert (PA := t_permA Sn). assert (PB := t_permB Sn). rewrite Forall_forall in PA, PB.
  destruct (PA l1) as (M1 & P1); [eapply nth_error_In; eauto|]. destruct (PB l2) as (M2 & P2); [eapply nth_error_In; eauto|].
  apply NoDup_cons_iff in D as (_ & D). apply NoDup_cons_iff in D as (DA & D). apply NoDup_cons_iff in D as (DB & D).
  split; split; [|split| |split].
  - constructor; auto. intros I. apply DA. right. apply in_app_iff. left. eapply Permutation_in; eauto.
  - intros x I. apply in_app_iff. left. eapply Permutation_in; eauto.
  - now apply Permutation_length.
  - constructor; auto. intros I. apply DB. rewrite !in_app_iff. right. left. eapply Permutation_in; eauto.
  - intros x I. apply in_app_iff. right. eapply Permutation_in; eauto.
  - now apply Permutation_length.
Qed.
(** a comparison *)
Lemma test_ok p rel x y : here p -> In x (la ++ lb) -> In y (la ++ lb) ->
  exists p', test rel x y p = (if throws (calls p) then Exn p' else Ret (rel (value_of p x) (value_of p y)) p') /\
    kept p p' la lb nh lsA lsB /\ calls p' = S (calls p).
Proof.
  intros H Ix Iy. destruct (opened H) as (a & b & (E & GA & GB) & EA & EB). destruct H as (R & _ & QA & QB).
  destruct (C03_two_consistent dv S2_ R) as (? & ? & Sn).
  assert (Lv : forall z, In z (la ++ lb) -> basM boxA (value z) (fst p) = Ret (value_of p z) (fst p)).
  { intros z I. destruct (t_live Sn z) as (v & Ez); [rewrite !in_app_iff in *; tauto|].
    unfold basM, lensM, value, Client.value_of, val. rewrite Ez. f_equal. apply (o_gs OA). }
  destruct p as (s, d). cbn [fst snd] in *.
  set (q := mkB (mem (bget boxA s)) (S (tk (bget boxA s)))).
  set (p' := (bset boxA q s, bset boxB q d)).
  assert (Eq : bget boxA (bset boxA q s) = q) by apply (o_bb OA).
  assert (T1 : test rel x y (s, d) = if throws (tk (bget boxA s)) then Exn p' else Ret (rel (value_of (s, d) x) (value_of (s, d) y)) p').
  { unfold test, Pair.on_src, lensM at 1. cbn [fst snd]. unfold bind.
    rewrite (Lv x), (Lv y) by auto. unfold basM, lensM, tick. fold q.
    destruct (throws (tk (bget boxA s))); cbn; now rewrite Eq. }
  assert (T2 : @run2 V throws pick hA hB csA csB (false, On (Call V (nat * iop V))) (s, d) = if throws (tk (bget boxA s)) then Exn p' else Ret Nothing p').
  { unfold run2, run1, Pair.on_src, lensM, exec_box. cbn [fst snd exec]. unfold bind, basM, lensM, tick. fold q.
    destruct (throws (tk (bget boxA s))); cbn; now rewrite Eq. }
  exists p'. unfold Client.calls. cbn [fst snd]. split; [exact T1|]. split.
  2: { unfold p'. cbn [fst]. now rewrite (o_bb OA). }
  unfold kept. split; [|split].
  - destruct (throws (tk (bget boxA s))) eqn:Th.
    + eapply r2_exn; [exact R| |exact T2|reflexivity]; exact I.
    + eapply r2_ret; [exact R| |exact T2|reflexivity]; exact I.
  - unfold p', Client.memory. cbn [fst]. now rewrite (o_bb OA).
  - assert (G1 := @good_other V throws pick dv hA csA (s2_a S2_) s a la _ q (hB :: lb ++ nh) GA (i_mem (g_inv GA)) (g_mem GA) (fun _ _ => eq_refl)).
    assert (G2 := @good_other V throws pick dv hB csB (s2_b S2_) d b lb _ q (hA :: la ++ nh) GB).
    rewrite <- EA, <- EB. split; [exact (good_views throws pick csA G1)|]. refine (good_views throws pick csB (G2 _ _ _)).
    + exact (i_mem (g_inv GA)).
    + cbn. rewrite (g_mem GA). perm.
    + intros z _. cbn. now rewrite E.
Qed.
Lemma hd_end (h : node) l1 x l : NoDup (h :: l1 ++ x :: l) -> (x =? h) = false.
Proof. intros N. apply Nat.eqb_neq. intros ->. apply NoDup_cons_iff in N as (N & _). apply N, in_elt. Qed.

Lemma equal_ok eq l1 : forall fuel p a1 a2 l2, here p -> nth_error lsA i = Some (a1 ++ l1) -> nth_error lsB j = Some (a2 ++ l2) ->
  length l1 = length l2 -> length l1 <= fuel ->
  match equal eq fuel (List.hd hA l1) (List.hd hB l2) p with
  | Ret b p' => kept p p' la lb nh lsA lsB /\ quiet throws (calls p) (calls p') /\ calls p' <= calls p + length l1 /\
      (b = true <-> all_equal eq (map (value_of p) l1) (map (value_of p) l2))
  | Exn p' => kept p p' la lb nh lsA lsB /\ blown throws (calls p) (calls p')
  | UB => False
  end.
Proof.
  induction l1 as [|x l1 IH]; intros fuel p a1 a2 l2 H N1 N2 Le Lf.
  - destruct l2; [|discriminate]. destruct fuel; cbn [equal List.hd]; rewrite Nat.eqb_refl; cbn; splits; auto; try lia; try apply quiet_refl; split; auto; constructor.
  - destruct l2 as [|y l2]; [discriminate|]. destruct fuel as [|f]; [cbn in Lf; lia|]. cbn in Le, Lf.
    destruct (ends H N1 N2) as ((D1 & I1 & _) & (D2 & I2 & _)). cbn [equal List.hd]. rewrite (hd_end _ _ _ D1).
    unfold bind at 1. destruct (@test_ok p eq x y H) as (p1 & -> & K & C); [apply I1, in_elt|apply I2, in_elt|].
    destruct (throws (calls p)) eqn:Th. { rewrite C. split; [exact K|]. now apply blown_S. }
    assert (Q1 : quiet throws (calls p) (calls p1)) by (rewrite C; now apply quiet_S).
    destruct (eq (value_of p x) (value_of p y)) eqn:Ev.
    + assert (H1 := kept_here K). unfold bind. rewrite (nextA_ok _ _ _ H1 N1), (nextB_ok _ _ _ H1 N2).
      change (x :: l1) with ([x] ++ l1) in N1. change (y :: l2) with ([y] ++ l2) in N2. rewrite app_assoc in N1, N2.
      specialize (IH f p1 (a1 ++ [x]) (a2 ++ [y]) l2 H1 N1 N2 ltac:(lia) ltac:(lia)).
      destruct (equal eq f (List.hd hA l1) (List.hd hB l2) p1) as [b p2|p2|]; auto.
      * destruct IH as (K2 & Q2 & C2 & Eb). splits; [eapply kept_trans; eauto|eapply quiet_trans; eauto|cbn [length]; lia|].
        rewrite Eb. rewrite !(map_ext _ _ (fun z => kept_val z K)). unfold all_equal. cbn [map]. split; [constructor; auto|now inversion 1].
      * destruct IH as (K2 & B2). split; [eapply kept_trans; eauto|eapply blown_trans; eauto].
    + unfold ret. splits; auto; [cbn [length]; lia|]. split; [discriminate|]. unfold all_equal. cbn [map]. inversion 1; congruence.
Qed.

Lemma lex_ok lt next1 next2 h1 h2 L1 L2
    (X1 : forall p a x l, here p -> L1 = a ++ x :: l -> next1 x p = Ret (List.hd h1 l) p)
    (X2 : forall p a x l, here p -> L2 = a ++ x :: l -> next2 x p = Ret (List.hd h2 l) p)
    (D1 : NoDup (h1 :: L1)) (D2 : NoDup (h2 :: L2)) (I1 : incl L1 (la ++ lb)) (I2 : incl L2 (la ++ lb)) l1 :
  forall fuel p a1 a2 l2, here p -> L1 = a1 ++ l1 -> L2 = a2 ++ l2 -> length l1 <= fuel \/ length l2 <= fuel ->
  match lexicographical_compare next1 next2 lt fuel (List.hd h1 l1) h1 (List.hd h2 l2) h2 p with
  | Ret b p' => kept p p' la lb nh lsA lsB /\ quiet throws (calls p) (calls p') /\ calls p' <= calls p + 2 * min (length l1) (length l2) /\
      (b = true <-> lex_less lt (map (value_of p) l1) (map (value_of p) l2))
  | Exn p' => kept p p' la lb nh lsA lsB /\ blown throws (calls p) (calls p')
  | UB => False
  end.
Proof.
  assert (stop : forall p (b : bool) (P : Prop) n, here p -> (b = true <-> P) ->
    kept p p la lb nh lsA lsB /\ quiet throws (calls p) (calls p) /\ calls p <= calls p + n /\ (b = true <-> P)).
  { intros p b P n H E. splits; auto; try lia; apply quiet_refl || apply E. }
  induction l1 as [|x l1 IH]; intros fuel p a1 a2 l2 H E1 E2 Lf.
  - destruct l2 as [|y l2].
    + destruct fuel; cbn [lexicographical_compare List.hd]; rewrite !Nat.eqb_refl; cbn [orb andb negb ret]; apply stop; auto; (split; [discriminate|intros F; now apply less_nil in F]).
    + assert (Ey : (y =? h2) = false) by (subst L2; eapply hd_end; eauto).
      destruct fuel; cbn [lexicographical_compare List.hd]; rewrite Nat.eqb_refl, Ey; cbn [orb andb negb ret]; apply stop; auto; (split; auto; intros _; apply nil_less).
  - assert (Ex : (x =? h1) = false) by (subst L1; eapply hd_end; eauto). destruct l2 as [|y l2].
    + destruct fuel; cbn [lexicographical_compare List.hd]; rewrite Nat.eqb_refl, Ex; cbn [orb andb negb ret]; apply stop; auto; (split; [discriminate|intros F; now apply less_nil in F]).
    + assert (Ey : (y =? h2) = false) by (subst L2; eapply hd_end; eauto).
      assert (Ix : In x (la ++ lb)) by (apply I1; rewrite E1; apply in_elt). assert (Iy : In y (la ++ lb)) by (apply I2; rewrite E2; apply in_elt).
      destruct fuel as [|f]; [cbn in Lf; lia|]. cbn [lexicographical_compare List.hd]. rewrite Ex, Ey. cbn [orb].
      unfold bind at 1. destruct (@test_ok p lt x y H Ix Iy) as (p1 & -> & K & C).
      destruct (throws (calls p)) eqn:Th. { rewrite C. split; [exact K|]. now apply blown_S. }
      assert (Q1 : quiet throws (calls p) (calls p1)) by (rewrite C; now apply quiet_S).
      destruct (lt (value_of p x) (value_of p y)) eqn:Ev.
      { unfold ret. splits; auto; [cbn [length]; lia|]. cbn [map]. split; auto. intros _. apply less_cons. now left. }
      assert (H1 := kept_here K). unfold bind at 1. destruct (@test_ok p1 lt y x H1 Iy Ix) as (p2 & -> & K2 & C2). rewrite !(kept_val _ K).
      destruct (throws (calls p1)) eqn:Th2. { rewrite C2. split; [eapply kept_trans; eauto|]. apply (blown_trans Q1). now apply blown_S. }
      assert (Q2 : quiet throws (calls p) (calls p2)) by (apply (quiet_trans Q1); rewrite C2; now apply quiet_S).
      assert (K3 := kept_trans K K2).
      destruct (lt (value_of p y) (value_of p x)) eqn:Ev2.
      { unfold ret. splits; auto; [cbn [length]; lia|]. cbn [map]. split; [discriminate|]. rewrite less_cons. intros [?|(_ & ? & _)]; congruence. }
      assert (H2 := kept_here K2). unfold bind. rewrite (X1 _ _ _ _ H2 E1), (X2 _ _ _ _ H2 E2).
      change (x :: l1) with ([x] ++ l1) in E1. change (y :: l2) with ([y] ++ l2) in E2. rewrite app_assoc in E1, E2.
      assert (Lf' : length l1 <= f \/ length l2 <= f) by (cbn in Lf; lia).
      specialize (IH f p2 _ _ l2 H2 E1 E2 Lf').
      destruct (lexicographical_compare next1 next2 lt f (List.hd h1 l1) h1 (List.hd h2 l2) h2 p2) as [b p3|p3|]; auto.
      * destruct IH as (K4 & Q4 & C4 & Eb). splits; [eapply kept_trans; eauto|eapply quiet_trans; eauto|cbn [length]; lia|].
        rewrite Eb. rewrite !(map_ext _ _ (fun z => kept_val z K3)). cbn [map]. rewrite less_cons, Ev, Ev2. split; [auto|intros [?|?]; [discriminate|tauto]].
      * destruct IH as (K4 & B4). split; [eapply kept_trans; eauto|eapply blown_trans; eauto].
Qed.
End At.

(** ** C55 *)
(** what is known after a comparison whose result is to be [P], with at most [n] calls *)
Definition decides p la lb nh lsA lsB (P : Prop) (n : nat) (o : out state bool) : Prop :=
  match o with
  | Ret b p' => kept p p' la lb nh lsA lsB /\ quiet throws (calls p) (calls p') /\ calls p' <= calls p + n /\ (b = true <-> P)
  | Exn p' => kept p p' la lb nh lsA lsB /\ blown throws (calls p) (calls p')
  | UB => False
  end.
Lemma decides_not p la lb nh lsA lsB P n m : decides p la lb nh lsA lsB P n (m p) -> decides p la lb nh lsA lsB (~ P) n ((b <- m ;; ret (negb b)) p).
Proof.
  unfold decides, bind. destruct (m p) as [b p'|p'|]; auto. cbn. intros (K & Q & C & E). splits; auto. rewrite negb_true_iff, <- E.
  split; [intros -> ?; discriminate|apply not_true_is_false].
Qed.
Section Ops.
Variables (p : state) (la lb nh : list node) (lsA lsB : list (list node)) (l1 l2 : list node).
Hypothesis R : reach2 p la lb nh.
Hypothesis QA : seqA p = Some lsA.
Hypothesis QB : seqB p = Some lsB.
Hypothesis N1 : nth_error lsA i = Some l1.
Hypothesis N2 : nth_error lsB j = Some l2.
Notation vs l := (map (value_of p) l).
Notation decides := (decides p la lb nh lsA lsB).
Let H := here_of R QA QB.

Theorem C55_equal eq : decides (all_equal eq (vs l1) (vs l2)) (if length l1 =? length l2 then length l1 else 0) (op_eq eq p).
Proof.
  destruct (ends H N1 N2) as ((_ & _ & L1) & (_ & _ & L2)). unfold op_eq, bind. destruct (sizes H) as (-> & ->). rewrite <- L1, <- L2.
  destruct (Nat.eqb_spec (length l1) (length l2)) as [E|E].
  - destruct (begins H N1 N2) as (-> & ->). exact (equal_ok eq l1 [] [] l2 H N1 N2 E (le_n _)).
  - unfold ret. cbn. split; [exact H|]. splits; [apply quiet_refl|lia|]. split; [discriminate|]. intros F.
    assert (X : length (vs l1) = length (vs l2)) by (clear -F; induction F; cbn; auto). rewrite !map_length in X. easy.
Qed.
Theorem C55_not_equal eq : decides (~ all_equal eq (vs l1) (vs l2)) (if length l1 =? length l2 then length l1 else 0) (op_ne eq p).
Proof. apply decides_not, C55_equal. Qed.
Theorem C55_less lt : decides (lex_less lt (vs l1) (vs l2)) (2 * min (length l1) (length l2)) (op_lt lt p).
Proof.
  destruct (ends H N1 N2) as ((D1 & I1 & L1) & (D2 & I2 & L2)). unfold op_lt, bind. destruct (sizes H) as (-> & _).
  destruct (begins H N1 N2) as (-> & ->). rewrite <- L1.
  apply (@lex_ok la lb nh lsA lsB lt nextA nextB hA hB l1 l2) with (a1 := []) (a2 := []); auto.
  - intros q a x l Hq ->. eapply nextA_ok; eauto.
  - intros q a x l Hq ->. eapply nextB_ok; eauto.
Qed.
Theorem C55_greater lt : decides (lex_less lt (vs l2) (vs l1)) (2 * min (length l2) (length l1)) (op_gt lt p).
Proof.
  destruct (ends H N1 N2) as ((D1 & I1 & L1) & (D2 & I2 & L2)). unfold op_gt, bind. destruct (sizes H) as (-> & _).
  destruct (begins H N1 N2) as (B1 & B2). rewrite B2, B1. rewrite <- L1.
  apply (@lex_ok la lb nh lsA lsB lt nextB nextA hB hA l2 l1) with (a1 := []) (a2 := []); auto.
  - intros q a x l Hq ->. eapply nextB_ok; eauto.
  - intros q a x l Hq ->. eapply nextA_ok; eauto.
Qed.
Theorem C55_not_less lt : decides (~ lex_less lt (vs l1) (vs l2)) (2 * min (length l1) (length l2)) (op_ge lt p).
Proof. apply decides_not, C55_less. Qed.
Theorem C55_not_greater lt : decides (~ lex_less lt (vs l2) (vs l1)) (2 * min (length l2) (length l1)) (op_le lt p).
Proof. apply decides_not, C55_greater. Qed.
End Ops.
End Compare.

(** the order of indices is a strict weak order if that of the elements is, and indices of which neither is less have equivalent
    elements in the same places *)
Theorem C55_order V (lt : V -> V -> bool) : (forall a, lt a a = false) -> (forall a b c, lt a b = true -> lt b c = true -> lt a c = true) ->
  (forall a b c, lt a b = false -> lt b a = false -> lt b c = false -> lt c b = false -> lt a c = false /\ lt c a = false) ->
  (forall xs, ~ lex_less lt xs xs) /\ (forall xs ys zs, lex_less lt xs ys -> lex_less lt ys zs -> lex_less lt xs zs) /\
  (forall xs ys, ~ lex_less lt xs ys /\ ~ lex_less lt ys xs <-> Forall2 (fun a b => lt a b = false /\ lt b a = false) xs ys).
Proof. intros I T C. splits; [now apply less_irr|now apply less_trans|apply less_neither]. Qed.

(** ** Examples *)
Definition at_ (k n : nat) : bool := n =? k.
Definition snd_cs : list (code nat) := [Sequenced nat 0 0; ContEx.by_id true].
Definition cmp_ops : list (bool * op1 nat) :=
  [(false, On (Insert _ 3 None)); (false, On (Insert _ 6 None)); (false, On (Insert _ 9 None));
   (true, On (Insert _ 2 None)); (true, On (Insert _ 7 None)); (true, On (Insert _ 8 None))].
Definition ex_play t := play2 (at_ t) pick0 1 2 csA0 snd_cs cmp_ops (start2 (at_ t) pick0 1 2 csA0 snd_cs 0) ([], [], []).
Definition ex t := fst (ex_play t).
Definition half_eq (x y : nat) : bool := x / 2 =? y / 2.
Definition half_lt (x y : nat) : bool := x / 2 <? y / 2.
Lemma ex_setting : setting2 pick0 1 2 csA0 snd_cs.
Proof.
  split; [exact ContEx.four_ok| |discriminate]. split; [exact ContEx.next_node_ok| |easy|easy].
  repeat (constructor; [first [exact ContEx.nat_swo|apply ContEx.nat_heq|exact I]|]). constructor.
Qed.
Definition n0 : nat := 26.
(** the hypotheses of the theorems are met, for a random access index and a sequenced one; [n0] calls to user code were made *)
Example ex_hyp t : In t [100; 28] -> reach2 (at_ t) pick0 1 2 csA0 snd_cs (ex t) [5; 4; 3] [8; 7; 6] [] /\
  sequences (at_ t) pick0 1 csA0 (fst (ex t)) = Some [[3; 4; 5]; [3; 4; 5]; [3; 4; 5]; [3; 4; 5]] /\
  sequences (at_ t) pick0 2 snd_cs (snd (ex t)) = Some [[6; 7; 8]; [6; 7; 8]] /\
  map (value_of (at_ t) pick0 0 1 csA0 (fst (ex t))) [3; 4; 5; 6; 7; 8] = [3; 6; 9; 2; 7; 8] /\
  calls (at_ t) pick0 1 csA0 (fst (ex t)) = n0.
Proof.
  intros I. split.
  - assert (P : playable2 (at_ t) pick0 1 2 csA0 snd_cs cmp_ops (start2 (at_ t) pick0 1 2 csA0 snd_cs 0) ([], [], [])).
    { repeat destruct I as [<-|I]; [vm_compute; repeat split; auto..|easy]. }
    apply play2_reach in P; [|apply r2_start]. repeat destruct I as [<-|I]; [vm_compute in P |- *; exact P..|easy].
  - repeat destruct I as [<-|I]; try easy; repeat split; vm_compute; reflexivity.
Qed.
Definition seen {S} (o : out S bool) : option (option bool) := match o with Ret b _ => Some (Some b) | Exn _ => Some None | UB => None end.
(** compared by halves the indices are equal, otherwise the second is less; the call numbered 28 throws in the third comparison *)
Example ex_compares :
  seen (@op_eq nat (at_ 100) pick0 1 2 csA0 snd_cs 3 0 half_eq (ex 100)) = Some (Some true) /\
  seen (@op_eq nat (at_ 100) pick0 1 2 csA0 snd_cs 3 0 Nat.eqb (ex 100)) = Some (Some false) /\
  seen (@op_eq nat (at_ 28) pick0 1 2 csA0 snd_cs 3 0 half_eq (ex 28)) = Some None /\
  seen (@op_lt nat (at_ 100) pick0 1 2 csA0 snd_cs 3 0 half_lt (ex 100)) = Some (Some false) /\
  seen (@op_gt nat (at_ 100) pick0 1 2 csA0 snd_cs 3 0 half_lt (ex 100)) = Some (Some false) /\
  seen (@op_lt nat (at_ 100) pick0 1 2 csA0 snd_cs 3 0 Nat.ltb (ex 100)) = Some (Some false) /\
  seen (@op_gt nat (at_ 100) pick0 1 2 csA0 snd_cs 0 1 Nat.ltb (ex 100)) = Some (Some true) /\
  seen (@op_lt nat (at_ 28) pick0 1 2 csA0 snd_cs 3 0 half_lt (ex 28)) = Some None.
Proof. splits; vm_compute; reflexivity. Qed.

Print Assumptions C55_equal.
Print Assumptions C55_not_equal.
Print Assumptions C55_less.
Print Assumptions C55_greater.
Print Assumptions C55_not_less.
Print Assumptions C55_not_greater.
Print Assumptions C55_order.
