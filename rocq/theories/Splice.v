(** C35, C33: moving elements from another container to a place in a sequenced index.
    Sources: /repo/include/boost/multi_index/sequenced_index.hpp, detail/seq_index_ops.hpp *)
From Verif Require Import Prelude SeqModel SeqSpec SeqHeap SeqProofs SeqUser Layer LayerBase PosOk SeqIdx
  Stack View Container ContOk Iops Up Down History ContSpec Client Focus Transfer Conv Pair PairProps SpliceBase.
From Verif Require RndMove ListProps.
Set Implicit Arguments.

Section Splice.
Variable V : Type.
Variable throws : nat -> bool.
Variable pick : list node -> node.
Variable dv : V.
Variables (hA hB : node) (csA : list (code V)).
(** the indices of the second container before and after the sequenced index looked at *)
Variables cs1 cs2 : list (code V).
Variables jn jp : node.
Notation this := (ListProps.this V jn jp).
Notation csB := (Focus.all cs1 cs2 this).
Notation boxA := (box throws pick hA csA).
Notation boxB := (box throws pick hB csB).
Notation state := (St boxA * St boxB)%type.
Notation seqA p := (@sequences V throws pick hA csA (fst p)).
Notation seqB p := (@sequences V throws pick hB csB (snd p)).
Notation countA p := (@count V throws pick hA csA (fst p)).
Notation countB p := (@count V throws pick hB csB (snd p)).
Notation value_of p := (@value_of V throws pick dv hA csA (fst p)).
Notation memory p := (@memory V throws pick hA csA (fst p)).
Notation calls p := (@calls V throws pick hA csA (fst p)).
Notation reach2 := (@reach2 V throws pick hA hB csA csB).
Notation sane2 := (@sane2 V throws pick dv hA hB csA csB).
Notation setting2 := (setting2 pick hA hB csA csB).
Notation on_dst := (@SpliceBase.on_dst V throws pick hA hB csA cs1 cs2 this).
Notation own := (@ListProps.own V throws pick hB cs1 cs2 jn jp).
Notation links := (@ListProps.links V throws pick hB cs1 cs2 jn jp).
Notation move_one := (@move_one V throws pick hA hB csA csB).
Notation move_range := (@move_range V throws pick hA hB csA csB).
Notation spliced := (@SpliceBase.spliced V throws pick dv hA hB csA cs1 cs2 this).
Notation spliced_undone := (@SpliceBase.spliced_undone V throws pick dv hA hB csA cs1 cs2 this).
Notation k := (length cs1).
Implicit Types (p : state) (la lb nh l : list node).

(** ** Model *)
(** splice(position,x,i) from another container, external_splice with equal allocators, sequenced_index.hpp:529-534, 1024-1030 and
    1042-1055 *)
Definition splice_one (pos x : node) : M state (node * bool) :=
  r <- move_one x ;;
  (if (snd r && negb (pos =? hB))%bool then on_dst (own (relink pos (fst r))) else ret tt) ;;;
  ret r.
(** splice(position,x,first,last), external_splice with equal allocators, 557-561, 1082-1085 and 1096-1120; [i] is the number of the
    source's index.  The handler does not rethrow.  splice(position,x), 491-496, is the case of x.begin() and x.end() *)
Definition splice_range (pos : node) (i : nat) (first last : node) : M state unit :=
  if pos =? hB then move_range i first last
  else
    f <- on_dst (own (decrement hB)) ;;
    f' <- try_catch (move_range i first last ;;; ret f)
            (f' <- on_dst (own (increment f)) ;; on_dst (own (relink_range pos f' hB)) ;;; ret f') ;;
    f'' <- on_dst (own (increment f')) ;;
    on_dst (own (relink_range pos f'' hB)).

(** ** Proofs *)
Hypothesis S2_ : setting2.
Notation OA := (box_ok throws dv (s2_a S2_)).
Notation OB := (box_ok throws dv (s2_b S2_)).
Lemma to_back v x l l' : placed hB this v None x l l' -> l' = l ++ [x].
Proof. intros P. cbn in P. congruence. Qed.
Lemma stays v l l' : untouched this v l l' -> l' = l.
Proof. intros P. cbn in P. congruence. Qed.

Lemma dst_links p la lb nh lsB l : reach2 p la lb nh -> seqB p = Some lsB -> nth_error lsB k = Some l -> seq_has hB (links (snd p)) l.
Proof. intros R Sq Nt. destruct (open_dst dv cs1 cs2 this S2_ R Sq Nt) as (a & (A & _) & ->). exact A. Qed.
Lemma dst_ro A (m : SM A) p la lb nh r : reach2 p la lb nh -> m (links (snd p)) = Ret r (links (snd p)) -> on_dst (own m) p = Ret r p.
Proof.
  intros R E. unfold SpliceBase.on_dst, lensM. rewrite (ListProps.own_ro throws pick hB cs1 cs2 jn jp m (snd p) E). rewrite (callsB dv cs1 cs2 this S2_ R). rewrite (o_gs OA). now destruct p.
Qed.
(** a move done to the links of the second container *)
Lemma dst_move p la lb nh lsA lsB l l' o : reach2 p la lb nh -> seqA p = Some lsA -> seqB p = Some lsB -> nth_error lsB k = Some l ->
  sstep hB o (l, []) (l', []) -> RndMove.moving o = true ->
  match on_dst (own (exec_sop (countB p + 1) hB o)) p with
  | Ret _ p' => reach2 p' la lb nh /\ memory p' = memory p /\ calls p' = calls p /\ seqA p' = Some lsA /\ seqB p' = Some (set_nth k l' lsB)
  | _ => False
  end.
Proof.
  intros R QA QB Nt Sp Mv. assert (Al : iallowed hB this l (Move V o)) by (cbn; eauto).
  assert (W := dst_effect dv cs1 cs2 this S2_ (Move V o) R QA QB Nt Al).
  destruct (countB_len dv cs1 cs2 this S2_ R QB Nt) as (C & _). assert (H := dst_links R QB Nt).
  destruct (exec_sop_spec (countB p + 1) hB [] _ _ _ _ _ _ Sp H) as (t' & E & W' & _); [lia|].
  assert (Y := ListProps.own_run throws pick hB cs1 cs2 jn jp (exec_sop (countB p + 1) hB o) (snd p)).
  assert (Em : on_dst (own (exec_sop (countB p + 1) hB o)) p = on_dst (run_index throws pick hB csB (k, Move V o)) p).
  { unfold SpliceBase.on_dst, lensM. rewrite (ListProps.own_move throws pick hB cs1 cs2 jn jp (snd p) o). reflexivity. }
  rewrite <- Em in W. unfold SpliceBase.on_dst, lensM in *. destruct p as (s, d). cbn [fst snd] in *.
  destruct (own (exec_sop (@count V throws pick hB csB d + 1) hB o) d) as [u d'|d'|]; [destruct Y as (Y & Yc)| |]; cbn [fst snd] in *; rewrite E in Y; [|discriminate Y|discriminate Y].
  injection Y as _ Y. destruct W as (R' & M & _ & QA' & l2 & _ & QB').
  assert (Lt : k < length lsB) by (apply nth_error_Some; congruence).
  assert (A2 := dst_links R' QB' (set_nth_at l2 lsB Lt)). cbn [fst snd] in A2. rewrite <- Y in A2.
  assert (l2 = l') by (eapply ListProps.seq_fun; eauto). subst l2. splits; auto.
  assert (B1 := callsB dv cs1 cs2 this S2_ R'). assert (B2 := callsB dv cs1 cs2 this S2_ R). cbn [fst snd] in *. unfold Client.calls in *. rewrite <- B1, <- B2. exact Yc.
Qed.
Lemma split_at (l1 l2 : list node) y : NoDup (hB :: l1 ++ l2) -> ~ In y (hB :: l1 ++ l2) -> (List.hd hB l2 =? y) = false.
Proof.
  intros N I. apply Nat.eqb_neq. intros <-. apply I. destruct l2 as [|z l2]; [now left|]. right. apply in_or_app. right. now left.
Qed.
Lemma pos_end (l1 l2 : list node) : NoDup (hB :: l1 ++ l2) -> List.hd hB l2 = hB -> l2 = [].
Proof.
  intros N E. destruct l2 as [|z l2]; auto. cbn in E. subst z. exfalso. inversion N as [|? ? N1 _]; subst. apply N1, in_or_app. right. now left.
Qed.

(** splice of one element: it moves iff it is in conflict with no element of the destination, and then goes where it has been sent to;
    otherwise, and if user code throws, the two containers stay as they are *)
Theorem C35_box_splice p la lb nh lsA lsB l1 l2 x : reach2 p la lb nh -> seqA p = Some lsA -> seqB p = Some lsB ->
  nth_error lsB k = Some (l1 ++ l2) -> In x la ->
  match splice_one (List.hd hB l2) x p with
  | Ret (y, true) p' => y = x /\ (forall z, In z lb -> ~ conflict csB (value_of p x) (value_of p z)) /\
      memory p' = memory p /\ quiet throws (calls p) (calls p') /\ seqA p' = Some (map (remove Nat.eq_dec x) lsA) /\
      (exists ls, each (fun c => placed hB c (value_of p) None x) csB lsB ls /\ seqB p' = Some (set_nth k (l1 ++ x :: l2) ls)) /\
      reach2 p' (remove Nat.eq_dec x la) (x :: lb) nh
  | Ret (y, false) p' => In y lb /\ conflict csB (value_of p x) (value_of p y) /\
      memory p' = memory p /\ quiet throws (calls p) (calls p') /\ seqA p' = Some lsA /\
      (exists ls, each (fun c => untouched c (value_of p)) csB lsB ls /\ seqB p' = Some ls /\ nth_error ls k = Some (l1 ++ l2)) /\
      reach2 p' la lb nh
  | Exn p' => blown throws (calls p) (calls p') /\ memory p' = memory p /\ seqA p' = Some lsA /\
      (exists ls, each (fun c => untouched c (value_of p)) csB lsB ls /\ seqB p' = Some ls /\ nth_error ls k = Some (l1 ++ l2)) /\
      reach2 p' la lb nh
  | UB => False
  end.
Proof.
  intros R QA QB Nt I. assert (W := C49_transfer dv S2_ x R QA QB I).
  assert (Q : match move_one x p with Ret _ p' => quiet throws (calls p) (calls p') | _ => True end).
  { destruct (reach2_ok dv S2_ R) as ((a & b & T) & _).
    assert (X := @move_one_spec V throws pick dv hA hB csA csB (s2_a S2_) (s2_b S2_) p a b la lb nh x T I). unfold wp in X.
    destruct (move_one x p); auto. apply X. }
  destruct (countB_len dv cs1 cs2 this S2_ R QB Nt) as (C & N & P).
  assert (R1 : forall y b p', move_one x p = Ret (y, b) p' -> reach2 p' (if b then remove Nat.eq_dec x la else la) (if b then x :: lb else lb) nh).
  { intros y b p' E. refine (r2_ret (false, One V x) (r := Pair y b) R _ _ _); [exact I| |].
    - unfold run2, run1. cbn [fst snd]. unfold bind. rewrite E. reflexivity.
    - cbn. destruct b; reflexivity. }
  unfold splice_one, bind at 1. destruct (move_one x p) as [(y, b) p1|p1|] eqn:E; [| |exact W].
  - specialize (R1 _ _ _ eq_refl). destruct b; cbn [snd fst andb].
    + destruct W as (-> & NC & M & C1 & C2 & QA1 & ls & QB1 & Ea).
      destruct (each_nth k Ea (this_at cs1 cs2 this) Nt) as (l' & Nt1 & Pl). cbn in Pl. subst l'.
      destruct (Nat.eqb_spec (List.hd hB l2) hB) as [Ep|Ep]; cbn [negb].
      * apply (pos_end _ _ N) in Ep. subst l2. unfold bind, ret. splits; auto. exists ls. split; auto. rewrite app_nil_r in *.
        rewrite QB1. f_equal. symmetry. now apply set_nth_id.
      * assert (Sp : sstep hB (SRelocate (List.hd hB l2) x) ((l1 ++ l2) ++ [x], []) (l1 ++ x :: l2, [])).
        { apply (st_relocate hB (l1 ++ l2) x []). now rewrite app_nil_r. }
        assert (W2 := dst_move R1 QA1 QB1 Nt1 Sp eq_refl). cbn [exec_sop] in W2. unfold s_relocate in W2.
        assert (Nx : (List.hd hB l2 =? x) = false).
        { apply split_at with (l1 := l1); auto. intros Ix. destruct (countB_len dv cs1 cs2 this S2_ R1 QB1 Nt1) as (_ & N1 & _).
          change (hB :: (l1 ++ l2) ++ [x]) with ((hB :: l1 ++ l2) ++ [x]) in N1. apply NoDup_app_iff in N1 as (_ & _ & D). apply (D x); auto. now left. }
        rewrite Nx in W2. unfold bind at 1. destruct (on_dst (own (relink (List.hd hB l2) x)) p1) as [u p2|p2|]; [|easy|easy].
        destruct W2 as (R2 & M2 & Cl2 & QA2 & QB2). unfold ret. splits; auto; try congruence.
        exists ls. auto.
    + destruct W as (Iy & Cf & M & _ & _ & QA1 & ls & QB1 & Ea). unfold bind, ret. splits; auto. exists ls. splits; auto.
      destruct (each_nth k Ea (this_at cs1 cs2 this) Nt) as (l' & Nt1 & Pl). cbn in Pl. now subst l'.
  - destruct W as (B & M & _ & _ & QA1 & ls & QB1 & Ea). splits; auto.
    + exists ls. splits; auto. destruct (each_nth k Ea (this_at cs1 cs2 this) Nt) as (l' & Nt1 & Pl). cbn in Pl. now subst l'.
    + refine (r2_exn (false, One V x) R _ _ _); [exact I| |reflexivity].
      unfold run2, run1. cbn [fst snd]. unfold bind. now rewrite E.
Qed.

(** ** a range *)
(** splice of a range before a position.  Missing: a position other than end() when user code throws, where the code is wrong *)
Theorem C35_box_range_partial p la lb nh lsA lsB i a mid b l1 l2 first last : reach2 p la lb nh -> seqA p = Some lsA -> seqB p = Some lsB ->
  nth_error lsA i = Some (a ++ mid ++ b) -> first = List.hd hA (mid ++ b) -> last = List.hd hA b -> nth_error lsB k = Some (l1 ++ l2) ->
  l2 = [] \/ (forall n, calls p <= n -> throws n = false) ->
  match splice_range (List.hd hB l2) i first last p with
  | Ret _ p' => quiet throws (calls p) (calls p') /\ exists moved, spliced p p' la lb nh lsA lsB mid moved l1 l2
  | Exn p' => blown throws (calls p) (calls p') /\ exists mid1 x mid2 moved, mid = mid1 ++ x :: mid2 /\
  spliced_undone p p' la lb nh lsA lsB mid1 moved l1 l2
  | UB => False
  end.
Proof.
  intros R QA QB Na -> -> Nb Hy. assert (W := range_moved dv cs1 cs2 this S2_ to_back stays i a mid b R QA QB Na Nb). destruct (countB_len dv cs1 cs2 this S2_ R QB Nb) as (C & N & P).
  unfold splice_range. destruct (Nat.eqb_spec (List.hd hB l2) hB) as [Ep|Ep].
  - apply (pos_end _ _ N) in Ep. subst l2. rewrite app_nil_r in *.
    destruct (move_range i _ _ p); auto.
  - destruct Hy as [->|Hy]; [now destruct Ep|].
    assert (L1 := dst_links R QB Nb). destruct (l1 ++ l2) as [|z r _] eqn:El using rev_ind.
    { exfalso. apply Ep. apply app_eq_nil in El as (_ & ->). reflexivity. }
    assert (D1 : decrement hB (links (snd p)) = Ret z (links (snd p))).
    { unfold decrement, get_prior. now rewrite (prior_end_at _ _ _ _ _ _ L1). }
    unfold bind at 1. rewrite (dst_ro _ R D1). unfold bind at 1, try_catch, bind at 1.
    destruct (move_range i (List.hd hA (mid ++ b)) (List.hd hA b) p) as [u p1|p1|] eqn:E; [| |exact W].
    + destruct W as (Q & moved & M & Inc & (ls & D & QB1) & QA1 & la' & lb' & R1 & P1 & P2). unfold ret at 1.
      rewrite app_nil_r in QB1. assert (Nt1 := dealt_nth cs1 cs2 this to_back stays D Nb). rewrite (set_nth_id k ls Nt1) in QB1.
      assert (L2 := dst_links R1 QB1 Nt1).
      assert (D2 : increment z (links (snd p1)) = Ret (List.hd hB moved) (links (snd p1))).
      { unfold increment, get_next. rewrite <- app_assoc in L2. now rewrite (SeqProofs.next_at _ _ r moved _ _ z L2). }
      unfold bind at 1. rewrite (dst_ro _ R1 D2).
      assert (Sp : sstep hB (SRelocateRange (List.hd hB l2) (List.hd hB (moved ++ [])) (List.hd hB [])) ((r ++ [z]) ++ moved ++ [], []) (l1 ++ moved ++ l2, [])).
      { apply (st_relocate_range hB (r ++ [z]) moved [] l1 l2). now rewrite app_nil_r. }
      rewrite app_nil_r in Sp. cbn [List.hd] in Sp.
      assert (W2 := dst_move R1 QA1 QB1 Nt1 Sp eq_refl). cbn [exec_sop] in W2. unfold s_relocate_range in W2.
      apply Nat.eqb_neq in Ep. rewrite Ep in W2.
      destruct (on_dst (own (relink_range (List.hd hB l2) (List.hd hB moved) hB)) p1) as [u2 p2|p2|]; [|easy|easy].
      destruct W2 as (R2 & M2 & Cl2 & QA2 & QB2). split; [now rewrite Cl2|]. exists moved. unfold spliced. splits; auto; try congruence.
      * exists ls. auto.
      * exists la', lb'. auto.
    + destruct W as ((n & E1 & (Le & Q) & Th) & _). rewrite Hy in Th; [discriminate|exact Le].
Qed.
End Splice.

(** ** C33: merge *)
Lemma mergeA_ext f g lt l0 : forall l1, (forall n, In n l1 -> f n = g n) -> mergeA f lt l0 l1 = mergeA g lt l0 l1.
Proof.
  induction l0 as [|a l0 IH]; intros l1 E.
  - rewrite !mergeA_nil. f_equal; apply filter_ext_in; intros n I; now rewrite (E n I).
  - induction l1 as [|b l1 IH1]; [now rewrite !mergeA_nil2|]. rewrite !mergeA_cons, IH1 by (intros n I; apply E; now right).
    rewrite (E b) by now left. now rewrite IH by exact E.
Qed.
Lemma mergeA_split f lt l0 : forall l1, Permutation (fst (mergeA f lt l0 l1)) (l0 ++ filter f l1).
Proof.
  induction l0 as [|a l0 IH]; intros l1; [now rewrite mergeA_nil|].
  induction l1 as [|b l1 IH1]; [rewrite mergeA_nil2; cbn; now rewrite app_nil_r|]. rewrite mergeA_cons.
  specialize (IH (b :: l1)). destruct (lt b a).
  - destruct (mergeA f lt (a :: l0) l1) as (x, y). cbn [fst filter] in *. destruct (f b); cbn [fst]; auto. rewrite IH1. perm.
  - destruct (mergeA f lt l0 (b :: l1)) as (x, y). cbn [fst] in *. now rewrite IH.
Qed.
Definition is_in (xs : list node) (x : node) : bool := existsb (Nat.eqb x) xs.
Lemma is_in_iff xs x : is_in xs x = true <-> In x xs.
Proof.
  unfold is_in. rewrite existsb_exists. split; [|intros I; exists x; split; auto; apply Nat.eqb_refl].
  intros (y & I & E). apply Nat.eqb_eq in E. now subst.
Qed.
Lemma merged_filter X conf add (same : X -> X -> Prop) lb ls mid moved ls' : merged conf add same lb ls mid moved ls' -> NoDup mid -> filter (is_in moved) mid = moved.
Proof.
  induction 1 as [lb ls|lb ls x ls1 mid moved ls' NC Ea Mr IH|lb ls x y ls1 mid moved ls' Iy Cf Ea Mr IH]; intros N; auto;
    apply NoDup_cons_iff in N as (Nx & N); cbn [filter].
  - assert (E : is_in (x :: moved) x = true) by (apply is_in_iff; now left). rewrite E. f_equal. rewrite <- (IH N) at 2. apply filter_ext_in.
    intros z Iz. unfold is_in. cbn. destruct (Nat.eqb_spec z x) as [->|]; auto. easy.
  - destruct (is_in moved x) eqn:E; auto. exfalso. apply is_in_iff in E. apply Nx. eapply merged_incl; eauto.
Qed.

Section Merge.
Variable V : Type.
Variable throws : nat -> bool.
Variable pick : list node -> node.
Variable dv : V.
Variables (hA hB : node).
(** a sequenced index in each container *)
Variables csA1 csA2 cs1 cs2 : list (code V).
Variables jn' jp' jn jp : node.
Notation thisA := (ListProps.this V jn' jp').
Notation this := (ListProps.this V jn jp).
Notation csA := (Focus.all csA1 csA2 thisA).
Notation csB := (Focus.all cs1 cs2 this).
Notation boxA := (box throws pick hA csA).
Notation boxB := (box throws pick hB csB).
Notation state := (St boxA * St boxB)%type.
Notation seqA p := (@sequences V throws pick hA csA (fst p)).
Notation seqB p := (@sequences V throws pick hB csB (snd p)).
Notation countA p := (@count V throws pick hA csA (fst p)).
Notation countB p := (@count V throws pick hB csB (snd p)).
Notation value_of p := (@value_of V throws pick dv hA csA (fst p)).
Notation memory p := (@memory V throws pick hA csA (fst p)).
Notation calls p := (@calls V throws pick hA csA (fst p)).
Notation reach2 := (@reach2 V throws pick hA hB csA csB).
Notation sane2 := (@sane2 V throws pick dv hA hB csA csB).
Notation setting2 := (setting2 pick hA hB csA csB).
Notation on_dst := (@SpliceBase.on_dst V throws pick hA hB csA cs1 cs2 this).
Notation on_src := (@Pair.on_src V throws pick hA hB csA csB).
Notation ownA := (@ListProps.own V throws pick hA csA1 csA2 jn' jp').
Notation own := (@ListProps.own V throws pick hB cs1 cs2 jn jp).
Notation linksA := (@ListProps.links V throws pick hA csA1 csA2 jn' jp').
Notation links := (@ListProps.links V throws pick hB cs1 cs2 jn jp).
Notation test2 := (@ListProps.test2 V throws pick hB cs1 cs2 jn jp).
Notation splice_one := (@splice_one V throws pick hA hB csA cs1 cs2 jn jp).
Notation splice_range := (@splice_range V throws pick hA hB csA cs1 cs2 jn jp).
Notation k := (length cs1).
Notation kA := (length csA1).
Implicit Types (p : state) (la lb nh l : list node).

(** *** Model *)
(** sequenced_index_merge, seq_index_ops.hpp:60-74, for different containers; merge, sequenced_index.hpp:602-610.
    [fuel] bounds the number of turns *)
Fixpoint merge_loop (fuel : nat) (lt : V -> V -> bool) (first0 last0 first1 last1 : node) : M state node :=
  if ((first0 =? last0) || (first1 =? last1))%bool then ret first1
  else
  match fuel with
  | 0 => ub
  | S f =>
    b <- on_dst (test2 lt first1 first0) ;;
    if b : bool then
      n <- on_src (ownA (increment first1)) ;;
      splice_one first0 first1 ;;;
      merge_loop f lt first0 last0 n last1
    else
      n <- on_dst (own (increment first0)) ;;
      merge_loop f lt n last0 first1 last1
  end.
Definition merge (lt : V -> V -> bool) : M state unit :=
  nA <- on_src (size boxA) ;; nB <- on_dst (size boxB) ;;
  first0 <- on_dst (own (s_begin hB)) ;;
  first1 <- on_src (ownA (s_begin hA)) ;;
  first1' <- merge_loop (nA + nB) lt first0 hB first1 hA ;;
  splice_range hB kA first1' hA.

(** *** Proofs *)
Hypothesis S2_ : setting2.
Notation OA := (box_ok throws dv (s2_a S2_)).
Notation OB := (box_ok throws dv (s2_b S2_)).

(** [R] relates the sequences of the second container's indices other than the one looked at *)
Definition others (R : code V -> list node -> list node -> Prop) (ls ls' : list (list node)) : Prop :=
  length ls' = length ls /\
  forall j c l, j <> k -> nth_error csB j = Some c -> nth_error ls j = Some l -> exists l', nth_error ls' j = Some l' /\ R c l l'.
(** the elements [mid] have been dealt with, in this order: an element moves if and only if it is in conflict with none of those
    which are in the second container at that time *)
Definition dealt (v : node -> V) : list node -> list (list node) -> list node -> list node -> list (list node) -> Prop :=
  merged (fun x y => conflict csB (v x) (v y)) (fun ls x => others (fun c => placed hB c v None x) ls) (others (fun c => untouched c v)).

Lemma set_nth_other {A} i j (x : A) ls : j <> i -> nth_error (set_nth i x ls) j = nth_error ls j.
Proof. revert i j. induction ls as [|y ls IH]; intros [|i] [|j] N; cbn; auto; try easy. Qed.
Lemma others_each R ls ls' x : each R csB ls ls' -> others R ls (set_nth k x ls').
Proof.
  intros Ea. split.
  - rewrite set_nth_len. clear -Ea. induction Ea; cbn; auto.
  - intros j c l N Nc Nl. destruct (each_nth j Ea Nc Nl) as (l' & Nl' & Rl). exists l'. split; auto. now rewrite set_nth_other.
Qed.
Lemma others_left R ls ls' x : others R ls ls' -> others R (set_nth k x ls) ls'.
Proof.
  intros (L & H). split; [now rewrite set_nth_len|]. intros j c l N Nc Nl. rewrite set_nth_other in Nl by auto. eauto.
Qed.
Lemma dealt_others v lb ls mid moved ls' : merged (fun x y => conflict csB (v x) (v y)) (fun ls x => each (fun c => placed hB c v None x) csB ls)
    (each (fun c => untouched c v) csB) lb ls mid moved ls' -> dealt v lb ls mid moved ls'.
Proof.
  assert (K : forall R ks ks', each R csB ks ks' -> others R ks ks').
  { intros R ks ks' Ea. destruct (nth_error ks' k) as [y|] eqn:E.
    - rewrite <- (set_nth_id k ks' E). now apply others_each.
    - split; [clear -Ea; induction Ea; cbn; auto|]. intros j c l0 _ Nc Nl. exact (each_nth j Ea Nc Nl). }
  induction 1; [constructor|eapply m_move; eauto|eapply m_stay; eauto].
Qed.

Lemma src_links p la lb nh lsA l : reach2 p la lb nh -> seqA p = Some lsA -> nth_error lsA kA = Some l -> seq_has hA (linksA (fst p)) l.
Proof.
  intros R Sq Nt. destruct (reach2_ok dv S2_ R) as ((a & b & T) & _). destruct T as (_ & G & _).
  assert (Vw := good_views throws pick csA G). rewrite Vw in Sq. injection Sq as <-.
  destruct (rep_at throws pick csA1 csA2 thisA G Nt) as (r & (A & _) & ->). exact A.
Qed.
Lemma src_same A (m : M (St boxA) A) p la lb nh r : reach2 p la lb nh -> m (fst p) = Ret r (fst p) -> on_src m p = Ret r p.
Proof.
  intros R E. unfold Pair.on_src, lensM. rewrite E. rewrite <- (callsB dv cs1 cs2 this S2_ R). rewrite (o_gs OB). now destruct p.
Qed.
Lemma src_ro A (m : SM A) p la lb nh r : reach2 p la lb nh -> m (linksA (fst p)) = Ret r (linksA (fst p)) -> on_src (ownA m) p = Ret r p.
Proof. intros R E. eapply src_same; eauto. exact (ListProps.own_ro throws pick hA csA1 csA2 jn' jp' m (fst p) E). Qed.

(** a comparison *)
Lemma compare p la lb nh lsA lsB lt x y : reach2 p la lb nh -> seqA p = Some lsA -> seqB p = Some lsB -> In x la -> In y lb ->
  exists p', on_dst (test2 lt x y) p = (if throws (calls p) then Exn p' else Ret (lt (value_of p x) (value_of p y)) p') /\
    reach2 p' la lb nh /\ memory p' = memory p /\ calls p' = S (calls p) /\ seqA p' = Some lsA /\ seqB p' = Some lsB.
Proof.
  intros R QA QB Ix Iy. destruct (C03_two_consistent dv S2_ R) as (? & ? & Sn).
  assert (Lv : forall z, In z (la ++ lb) -> basM boxB (value z) (snd p) = Ret (value_of p z) (snd p)).
  { intros z I. destruct (t_live Sn z) as (v & E); [rewrite !in_app_iff in *; tauto|].
    unfold basM, lensM, value, Client.value_of, val. rewrite (callsB dv cs1 cs2 this S2_ R). rewrite E. f_equal.
    rewrite <- (callsB dv cs1 cs2 this S2_ R). apply (o_gs OB). }
  set (m := @exec_box V throws pick hB csB (Call V (nat * iop V))).
  destruct (reach2_ok dv S2_ R) as ((a & b & T) & Lh). destruct T as (E & GA & GB).
  assert (B := callsB dv cs1 cs2 this S2_ R). destruct p as (s, d). cbn [fst snd] in *.
  set (q := mkB (mem (bget boxA s)) (S (tk (bget boxA s)))).
  set (p' := (bset boxA q s, bset boxB q d)).
  assert (Eq : bget boxB (bset boxB q d) = q) by apply (o_bb OB).
  assert (Em : forall A (r : A), lensM (bget boxB) (fun b0 s0 => bset boxB b0 s0) (fun b0 => Ret r b0) d = Ret r d).
  { intros A r. unfold lensM. now rewrite (o_gs OB). }
  assert (T1 : on_dst (test2 lt x y) (s, d) = if throws (tk (bget boxA s)) then Exn p' else Ret (lt (value_of (s, d) x) (value_of (s, d) y)) p').
  { unfold SpliceBase.on_dst, lensM at 1. cbn [fst snd]. unfold ListProps.test2, bind.
    rewrite (Lv x), (Lv y) by (rewrite in_app_iff; auto). unfold basM, lensM, tick. rewrite B. fold q.
    destruct (throws (tk (bget boxA s))); cbn; now rewrite Eq. }
  assert (T2 : on_dst m (s, d) = if throws (tk (bget boxA s)) then Exn p' else Ret Nothing p').
  { unfold SpliceBase.on_dst, lensM, m, exec_box. cbn [fst snd exec]. unfold bind, basM, lensM, tick. rewrite B. fold q.
    destruct (throws (tk (bget boxA s))); cbn; now rewrite Eq. }
  exists p'. unfold Client.calls. cbn [fst snd]. split; [exact T1|].
  assert (Vw : seqA p' = Some lsA /\ seqB p' = Some lsB).
  { assert (VA := good_views throws pick csA GA). assert (VB := good_views throws pick csB GB). rewrite VA in QA. rewrite VB in QB. injection QA as <-. injection QB as <-.
    assert (G1 := @good_other V throws pick dv hA csA (s2_a S2_) s a la _ q (hB :: lb ++ nh) GA (i_mem (g_inv GA)) (g_mem GA) (fun _ _ => eq_refl)).
    assert (G2 := @good_other V throws pick dv hB csB (s2_b S2_) d b lb _ q (hA :: la ++ nh) GB).
    split; [exact (good_views throws pick csA G1)|]. refine (good_views throws pick csB (G2 _ _ _)).
    - exact (i_mem (g_inv GA)).
    - cbn. rewrite (g_mem GA). perm.
    - intros z _. cbn. now rewrite B. }
  splits; try apply Vw.
  - destruct (throws (tk (bget boxA s))) eqn:Th.
    + exact (dst_exn cs1 cs2 this (Call V (nat * iop V)) R I T2).
    + exact (dst_ret cs1 cs2 this (Call V (nat * iop V)) (r := Nothing) R I T2).
  - unfold p', Client.memory. cbn [fst]. now rewrite (o_bb OA).
  - unfold p'. cbn [fst]. now rewrite (o_bb OA).
Qed.

(** [mid] has been dealt with, [moved] are the elements which have moved, [m] the elements of the index *)
Definition merged_in p p' la lb nh lsA lsB (mid moved m : list node) : Prop :=
  memory p' = memory p /\ incl moved mid /\
  (exists ls, dealt (value_of p) lb lsB mid moved ls /\ seqB p' = Some ls /\ nth_error ls k = Some m) /\
  seqA p' = Some (map (without moved) lsA) /\
  exists la' lb', reach2 p' la' lb' nh /\ Permutation la' (without moved la) /\ Permutation lb' (moved ++ lb).
(** ... when the last operation has been undone *)
Definition merged_part p p' la lb nh lsA lsB (mid moved m : list node) : Prop :=
  memory p' = memory p /\ incl moved mid /\
  (exists ls ls', dealt (value_of p) lb lsB mid moved ls /\ others (fun c => untouched c (value_of p)) ls ls' /\
     seqB p' = Some ls' /\ nth_error ls' k = Some m) /\
  seqA p' = Some (map (without moved) lsA) /\
  exists la' lb', reach2 p' la' lb' nh /\ Permutation la' (without moved la) /\ Permutation lb' (moved ++ lb).

Lemma same_values p p' : memory p' = memory p -> value_of p' = value_of p.
Proof. intros M. exact (vals_mem dv _ _ M). Qed.
Lemma dealt_filter v lb ls mid moved ls' : dealt v lb ls mid moved ls' -> NoDup mid -> filter (is_in moved) mid = moved.
Proof. apply merged_filter. Qed.
Lemma without_cons x moved l : without (x :: moved) l = without moved (remove Nat.eq_dec x l).
Proof. rewrite <- !drop_without. reflexivity. Qed.
Lemma without_nil l : without [] l = l.
Proof. rewrite <- drop_without. reflexivity. Qed.
Lemma remove_mid (x : node) a b : NoDup (a ++ x :: b) -> remove Nat.eq_dec x (a ++ x :: b) = a ++ b.
Proof.
  intros N. rewrite remove_app. cbn. destruct (Nat.eq_dec x x) as [_|]; [|easy]. apply NoDup_remove_2 in N. rewrite in_app_iff in N.
  now rewrite !notin_remove by tauto.
Qed.
Lemma seq_nodup p la lb nh lsA lsB : reach2 p la lb nh -> seqA p = Some lsA -> seqB p = Some lsB ->
  (forall l, nth_error lsA kA = Some l -> NoDup (hA :: l) /\ Permutation l la) /\
  (forall l, nth_error lsB k = Some l -> NoDup (hB :: l) /\ Permutation l lb) /\ length lsB = length csB.
Proof.
  intros R QA QB. destruct (C03_two_consistent dv S2_ R) as (ls1 & ls2 & Sn). rewrite (t_seqA Sn) in QA. rewrite (t_seqB Sn) in QB.
  injection QA as ->. injection QB as ->. assert (D := t_dist Sn). inversion D as [|? ? _ D1]; subst. inversion D1 as [|? ? NA D2]; subst.
  inversion D2 as [|? ? NB _]; subst. splits; [| |apply (t_lenB Sn)]; intros l Nt.
  - assert (P := t_permA Sn). rewrite Forall_forall in P. destruct (P l (nth_error_In _ _ Nt)) as (N & Pl). split; auto. constructor; auto.
    intros I. apply NA. right. apply in_or_app. left. eapply Permutation_in; eauto.
  - assert (P := t_permB Sn). rewrite Forall_forall in P. destruct (P l (nth_error_In _ _ Nt)) as (N & Pl). split; auto. constructor; auto.
    intros I. apply NB. rewrite !in_app_iff. right. left. eapply Permutation_in; eauto.
Qed.
Lemma others_refl v ls : others (fun c => untouched c v) ls ls.
Proof. split; auto. intros j c l _ _ E. exists l. split; auto. destruct c; cbn; auto. split; auto. Qed.

Lemma in_after_move p p2 p' la lb nh lsA lsB ls2 x mid moved m : memory p2 = memory p ->
  (forall z, In z lb -> ~ conflict csB (value_of p x) (value_of p z)) -> others (fun c => placed hB c (value_of p) None x) lsB ls2 ->
  merged_in p2 p' (remove Nat.eq_dec x la) (x :: lb) nh (map (remove Nat.eq_dec x) lsA) ls2 mid moved m ->
  merged_in p p' la lb nh lsA lsB (x :: mid) (x :: moved) m.
Proof.
  intros M NC O (M2 & Inc & (ls & D & QB & Nt) & QA & la' & lb' & R & P1 & P2). rewrite (same_values _ _ M) in D. unfold merged_in. splits.
  - congruence.
  - intros z [<-|I]; [now left|right; auto].
  - exists ls. splits; auto. eapply m_move; eauto.
  - rewrite QA, map_map. f_equal. apply map_ext. intros l. now rewrite without_cons.
  - exists la', lb'. splits; auto; [now rewrite without_cons|]. rewrite P2. cbn. perm.
Qed.
Lemma in_after_stay p p2 p' la lb nh lsA lsB ls2 x y mid moved m : memory p2 = memory p ->
  In y lb -> conflict csB (value_of p x) (value_of p y) -> others (fun c => untouched c (value_of p)) lsB ls2 ->
  merged_in p2 p' la lb nh lsA ls2 mid moved m -> merged_in p p' la lb nh lsA lsB (x :: mid) moved m.
Proof.
  intros M Iy Cf O (M2 & Inc & (ls & D & QB & Nt) & QA & la' & lb' & R & P1 & P2). rewrite (same_values _ _ M) in D. unfold merged_in. splits; auto.
  - congruence.
  - intros z I. right. auto.
  - exists ls. splits; auto. eapply m_stay; eauto.
  - exists la', lb'. auto.
Qed.
Lemma in_same p p2 p' la lb nh lsA lsB mid moved m : memory p2 = memory p ->
  merged_in p2 p' la lb nh lsA lsB mid moved m -> merged_in p p' la lb nh lsA lsB mid moved m.
Proof. intros M H. unfold merged_in in *. rewrite (same_values _ _ M), M in H. exact H. Qed.
Lemma part_after_move p p2 p' la lb nh lsA lsB ls2 x mid moved m : memory p2 = memory p ->
  (forall z, In z lb -> ~ conflict csB (value_of p x) (value_of p z)) -> others (fun c => placed hB c (value_of p) None x) lsB ls2 ->
  merged_part p2 p' (remove Nat.eq_dec x la) (x :: lb) nh (map (remove Nat.eq_dec x) lsA) ls2 mid moved m ->
  merged_part p p' la lb nh lsA lsB (x :: mid) (x :: moved) m.
Proof.
  intros M NC O (M2 & Inc & (ls & ls' & D & U & QB & Nt) & QA & la' & lb' & R & P1 & P2). rewrite (same_values _ _ M) in D, U. unfold merged_part. splits.
  - congruence.
  - intros z [<-|I]; [now left|right; auto].
  - exists ls, ls'. splits; auto. eapply m_move; eauto.
  - rewrite QA, map_map. f_equal. apply map_ext. intros l. now rewrite without_cons.
  - exists la', lb'. splits; auto; [now rewrite without_cons|]. rewrite P2. cbn. perm.
Qed.
Lemma part_after_stay p p2 p' la lb nh lsA lsB ls2 x y mid moved m : memory p2 = memory p ->
  In y lb -> conflict csB (value_of p x) (value_of p y) -> others (fun c => untouched c (value_of p)) lsB ls2 ->
  merged_part p2 p' la lb nh lsA ls2 mid moved m -> merged_part p p' la lb nh lsA lsB (x :: mid) moved m.
Proof.
  intros M Iy Cf O (M2 & Inc & (ls & ls' & D & U & QB & Nt) & QA & la' & lb' & R & P1 & P2). rewrite (same_values _ _ M) in D, U. unfold merged_part. splits; auto.
  - congruence.
  - intros z I. right. auto.
  - exists ls, ls'. splits; auto. eapply m_stay; eauto.
  - exists la', lb'. auto.
Qed.
Lemma part_same p p2 p' la lb nh lsA lsB mid moved m : memory p2 = memory p ->
  merged_part p2 p' la lb nh lsA lsB mid moved m -> merged_part p p' la lb nh lsA lsB mid moved m.
Proof. intros M H. unfold merged_part in *. rewrite (same_values _ _ M), M in H. exact H. Qed.
Lemma part_none p p' la lb nh lsA lsB ls' m : reach2 p' la lb nh -> memory p' = memory p -> seqA p' = Some lsA -> seqB p' = Some ls' ->
  others (fun c => untouched c (value_of p)) lsB ls' -> nth_error ls' k = Some m -> merged_part p p' la lb nh lsA lsB [] [] m.
Proof.
  intros R M QA QB O Nt. unfold merged_part. splits; auto.
  - intros z [].
  - exists lsB, ls'. splits; auto. constructor.
  - rewrite QA. f_equal. rewrite <- (map_id lsA) at 1. apply map_ext. intros l. now rewrite without_nil.
  - exists la, lb. splits; auto. now rewrite without_nil.
Qed.
Lemma set_nth_there ls l' m : nth_error ls k = Some l' -> nth_error (set_nth k m ls) k = Some m.
Proof. intros E. apply set_nth_at. apply nth_error_Some. congruence. Qed.

Lemma merge_end lt p la lb nh lsA lsB X r0 Y r1 : reach2 p la lb nh -> seqA p = Some lsA -> seqB p = Some lsB ->
  nth_error lsA kA = Some (Y ++ r1) -> nth_error lsB k = Some (X ++ r0) -> r0 = [] \/ r1 = [] ->
  match splice_range hB kA (List.hd hA r1) hA p with
  | Ret _ p' => quiet throws (calls p) (calls p') /\ exists moved,
      merged_in p p' la lb nh lsA lsB r1 moved (X ++ fst (mergeA (is_in moved) (fun x y => lt (value_of p x) (value_of p y)) r0 r1))
  | Exn p' => blown throws (calls p) (calls p') /\ exists r1a r1b moved m, r1 = r1a ++ r1b /\
      merged_part p p' la lb nh lsA lsB r1a moved m /\ Permutation m (X ++ r0 ++ moved)
  | UB => False
  end.
Proof.
  intros R QA QB Na Nb Or. destruct (seq_nodup R QA QB) as (NA & NB & LB). specialize (NA _ Na). specialize (NB _ Nb).
  assert (N1 : NoDup r1). { destruct NA as (NA & _). inversion NA as [|? ? _ N]; subst. now apply NoDup_app_iff in N as (_ & N & _). }
  rewrite <- (app_nil_r r1) in Na. rewrite <- (app_nil_r (X ++ r0)) in Nb.
  assert (W := C35_box_range_partial dv cs1 cs2 jn jp S2_ kA Y r1 [] (X ++ r0) (l2 := []) R QA QB Na eq_refl eq_refl Nb (or_introl eq_refl)). rewrite app_nil_r in W. cbn [List.hd] in W.
  assert (Lt : k < length lsB) by (apply nth_error_Some; congruence). rewrite app_nil_r in Nb.
  destruct (splice_range hB kA (List.hd hA r1) hA p) as [u p'|p'|]; [| |exact W].
  - destruct W as (Q & moved & M & Inc & (ls & D & QB') & QA' & Ex). split; auto. exists moved. unfold merged_in. splits; auto.
    assert (Nt := dealt_nth cs1 cs2 this (@to_back V hB jn jp) (@stays V jn jp) D Nb). rewrite app_nil_r, (set_nth_id k ls Nt) in QB'. apply dealt_others in D.
    exists ls. splits; auto. rewrite Nt. f_equal. rewrite <- app_assoc. f_equal. destruct Or as [->| ->].
    + rewrite mergeA_nil. cbn [fst app]. symmetry. eapply dealt_filter; eauto.
    + rewrite mergeA_nil2. destruct moved as [|z moved]; [apply app_nil_r|]. destruct (Inc z). now left.
  - destruct W as (Q & mid1 & x & mid2 & moved & -> & M & Inc & (ls & ls' & D & U & QB') & QA' & Ex). split; auto.
    exists mid1, (x :: mid2), moved, (X ++ r0 ++ moved). splits; auto. unfold merged_part. splits; auto. rewrite app_nil_r, <- app_assoc in QB'.
    exists ls, (set_nth k (X ++ r0 ++ moved) ls'). assert (Nt := dealt_nth cs1 cs2 this (@to_back V hB jn jp) (@stays V jn jp) D Nb).
    destruct (each_nth k U (this_at cs1 cs2 this) Nt) as (l' & Nt2 & Pl). splits; auto.
    + now apply dealt_others.
    + now apply others_each.
    + eapply set_nth_there; eauto.
Qed.

Lemma merge_ok lt fuel : forall p la lb nh lsA lsB X r0 Y r1, reach2 p la lb nh -> seqA p = Some lsA -> seqB p = Some lsB ->
  nth_error lsA kA = Some (Y ++ r1) -> nth_error lsB k = Some (X ++ r0) -> length r0 + length r1 <= fuel ->
  match (n <- merge_loop fuel lt (List.hd hB r0) hB (List.hd hA r1) hA ;; splice_range hB kA n hA) p with
  | Ret _ p' => quiet throws (calls p) (calls p') /\ exists moved,
      merged_in p p' la lb nh lsA lsB r1 moved (X ++ fst (mergeA (is_in moved) (fun x y => lt (value_of p x) (value_of p y)) r0 r1))
  | Exn p' => blown throws (calls p) (calls p') /\ exists r1a r1b moved m, r1 = r1a ++ r1b /\
      merged_part p p' la lb nh lsA lsB r1a moved m /\ Permutation m (X ++ r0 ++ moved)
  | UB => False
  end.
Proof.
  induction fuel as [|f IH]; intros p la lb nh lsA lsB X r0 Y r1 R QA QB Na Nb Lf.
  { assert (r0 = [] /\ r1 = []) as (-> & ->) by (destruct r0, r1; cbn in Lf; auto; lia).
    cbn [merge_loop List.hd]. rewrite Nat.eqb_refl. cbn [orb]. unfold bind, ret.
    exact (merge_end lt X Y R QA QB Na Nb (or_introl eq_refl)). }
  destruct (seq_nodup R QA QB) as (NA & NB & LB). specialize (NA _ Na) as (NA & PA). specialize (NB _ Nb) as (NB & PB).
  destruct r0 as [|a r0].
  { cbn [merge_loop List.hd]. rewrite Nat.eqb_refl. cbn [orb]. unfold bind, ret. apply (merge_end lt X (r0 := []) Y (r1 := r1) R QA QB Na Nb); auto. }
  destruct r1 as [|x r1].
  { cbn [merge_loop List.hd]. rewrite Nat.eqb_refl, orb_true_r. unfold bind, ret. apply (merge_end lt X (r0 := a :: r0) Y (r1 := []) R QA QB Na Nb); auto. }
  assert (Ea : (a =? hB) = false).
  { apply Nat.eqb_neq. intros ->. inversion NB as [|? ? N _]; subst. apply N, in_or_app. right. now left. }
  assert (Ex : (x =? hA) = false).
  { apply Nat.eqb_neq. intros ->. inversion NA as [|? ? N _]; subst. apply N, in_or_app. right. now left. }
  cbn [merge_loop List.hd]. rewrite Ea, Ex. cbn [orb].
  assert (Ix : In x la) by (eapply Permutation_in; [exact PA|]; apply in_or_app; right; now left).
  assert (Ia : In a lb) by (eapply Permutation_in; [exact PB|]; apply in_or_app; right; now left).
  destruct (compare lt x a R QA QB Ix Ia) as (p1 & E & R1 & M1 & C1 & QA1 & QB1).
  unfold bind at 1, bind at 1. rewrite E. destruct (throws (calls p)) eqn:Th.
  { split; [rewrite C1; now apply blown_S|]. exists [], (x :: r1), [], (X ++ a :: r0). splits; auto; [|now rewrite app_nil_r].
    apply part_none with (ls' := lsB); auto. apply others_refl. }
  assert (Q1 : quiet throws (calls p) (calls p1)) by (rewrite C1; now apply quiet_S).
  assert (V1 : value_of p1 = value_of p) by (now apply same_values).
  destruct (lt (value_of p x) (value_of p a)) eqn:Lt.
  - (* the element of the other container goes first *)
    assert (LA := src_links R1 QA1 Na).
    assert (D1 : increment x (linksA (fst p1)) = Ret (List.hd hA r1) (linksA (fst p1))).
    { unfold increment, get_next. now rewrite (SeqProofs.next_at _ _ Y r1 _ _ x LA). }
    unfold bind at 1. rewrite (src_ro _ R1 D1).
    assert (W := C35_box_splice dv cs1 cs2 jn jp S2_ X (a :: r0) x R1 QA1 QB1 Nb Ix). cbn [List.hd] in W. unfold bind at 1.
    destruct (splice_one a x p1) as [(y, b) p2|p2|]; [destruct b| |exact W].
    + destruct W as (_ & NC & M2 & Q2 & QA2 & (ls & Pl & QB2) & R2). rewrite V1 in NC, Pl.
      destruct (each_nth k Pl (this_at cs1 cs2 this) Nb) as (l' & Nt2 & _).
      assert (Na2 : nth_error (map (remove Nat.eq_dec x) lsA) kA = Some (Y ++ r1)).
      { rewrite (map_nth_error _ _ _ Na). f_equal. apply remove_mid. now inversion NA. }
      assert (Nb2 : nth_error (set_nth k (X ++ x :: a :: r0) ls) k = Some ((X ++ [x]) ++ a :: r0)).
      { rewrite <- app_assoc. eapply set_nth_there; eauto. }
      assert (Lf2 : length (a :: r0) + length r1 <= f) by (cbn in *; lia).
      assert (W := IH p2 _ _ _ _ _ _ _ _ _ R2 QA2 QB2 Na2 Nb2 Lf2). cbn [List.hd] in W. 
      assert (M3 : memory p2 = memory p) by congruence. rewrite (same_values _ _ M3) in W.
      assert (O : others (fun c => placed hB c (value_of p) None x) lsB (set_nth k (X ++ x :: a :: r0) ls)) by (now apply others_each).
      unfold bind in W.
      destruct (match merge_loop f lt a hB (List.hd hA r1) hA p2 with Ret n q => splice_range hB kA n hA q | Exn q => Exn q | UB => UB end)
        as [u p'|p'|]; [| |exact W].
      * destruct W as (Q3 & moved & Mi). split; [eapply quiet_trans; eauto; eapply quiet_trans; eauto|]. exists (x :: moved).
        rewrite mergeA_cons, Lt. 
        replace (mergeA (is_in (x :: moved)) (fun x0 y0 => lt (value_of p x0) (value_of p y0)) (a :: r0) r1)
          with (mergeA (is_in moved) (fun x0 y0 => lt (value_of p x0) (value_of p y0)) (a :: r0) r1).
        2:{ apply mergeA_ext. intros n In_. unfold is_in. cbn. destruct (Nat.eqb_spec n x) as [->|]; auto. exfalso.
            inversion NA as [|? ? _ N]; subst. apply NoDup_app_iff in N as (_ & N & _). inversion N; auto. }
        assert (Ei : is_in (x :: moved) x = true) by (apply is_in_iff; now left). rewrite Ei.
        destruct (mergeA (is_in moved) _ (a :: r0) r1) as (mm, mr). cbn [fst] in *. rewrite <- app_assoc in Mi. eapply in_after_move; eauto.
      * destruct W as (B3 & r1a & r1b & moved & m & -> & Mi & Pm).
        split; [apply (blown_trans Q1), (blown_trans Q2); exact B3|]. exists (x :: r1a), r1b, (x :: moved), m. splits; auto.
        -- eapply part_after_move; eauto.
        -- rewrite Pm. cbn. perm.
    + destruct W as (Iy & Cf & M2 & Q2 & QA2 & (ls & Pl & QB2 & Nt2) & R2). rewrite V1 in Cf, Pl.
      assert (Na2 : nth_error lsA kA = Some ((Y ++ [x]) ++ r1)) by (now rewrite <- app_assoc).
      assert (Lf2 : length (a :: r0) + length r1 <= f) by (cbn in *; lia).
      assert (W := IH p2 _ _ _ _ _ _ _ _ _ R2 QA2 QB2 Na2 Nt2 Lf2). cbn [List.hd] in W. 
      assert (M3 : memory p2 = memory p) by congruence. rewrite (same_values _ _ M3) in W.
      assert (O : others (fun c => untouched c (value_of p)) lsB ls).
      { rewrite <- (set_nth_id k ls Nt2). now apply others_each. }
      unfold bind in W.
      destruct (match merge_loop f lt a hB (List.hd hA r1) hA p2 with Ret n q => splice_range hB kA n hA q | Exn q => Exn q | UB => UB end)
        as [u p'|p'|]; [| |exact W].
      * destruct W as (Q3 & moved & Mi). split; [eapply quiet_trans; eauto; eapply quiet_trans; eauto|]. exists moved.
        rewrite mergeA_cons, Lt. 
        assert (Ei : is_in moved x = false).
        { destruct (is_in moved x) eqn:Ei; auto. apply is_in_iff in Ei. exfalso. destruct Mi as (_ & Inc & _).
          inversion NA as [|? ? _ N]; subst. apply NoDup_app_iff in N as (_ & N & _). inversion N; auto. }
        rewrite Ei.
        destruct (mergeA (is_in moved) _ (a :: r0) r1) as (mm, mr). cbn [fst] in *. eapply in_after_stay; eauto.
      * destruct W as (B3 & r1a & r1b & moved & m & -> & Mi & Pm).
        split; [apply (blown_trans Q1), (blown_trans Q2); exact B3|]. exists (x :: r1a), r1b, moved, m. splits; auto.
        eapply part_after_stay; eauto.
    + destruct W as (B2 & M2 & QA2 & (ls & Pl & QB2 & Nt2) & R2). rewrite V1 in Pl. split; [eapply blown_trans; eauto|].
      exists [], (x :: r1), [], (X ++ a :: r0). splits; auto; [|now rewrite app_nil_r].
      eapply part_none with (ls' := ls); eauto; try congruence. rewrite <- (set_nth_id k ls Nt2). now apply others_each.
  - (* the element which is there stays *)
    assert (LB1 := dst_links dv cs1 cs2 jn jp S2_ R1 QB1 Nb).
    assert (D1 : increment a (links (snd p1)) = Ret (List.hd hB r0) (links (snd p1))).
    { unfold increment, get_next. now rewrite (SeqProofs.next_at _ _ X r0 _ _ a LB1). }
    unfold bind at 1. rewrite (dst_ro dv cs1 cs2 jn jp S2_ _ R1 D1).
    assert (Nb2 : nth_error lsB k = Some ((X ++ [a]) ++ r0)) by (now rewrite <- app_assoc).
    assert (Lf2 : length r0 + length (x :: r1) <= f) by (cbn in *; lia).
    assert (W := IH p1 _ _ _ _ _ _ _ _ _ R1 QA1 QB1 Na Nb2 Lf2). cbn [List.hd] in W. rewrite V1 in W.
    unfold bind in W.
    destruct (match merge_loop f lt (List.hd hB r0) hB x hA p1 with Ret n q => splice_range hB kA n hA q | Exn q => Exn q | UB => UB end)
      as [u p'|p'|]; [| |exact W].
    + destruct W as (Q3 & moved & Mi). split; [eapply quiet_trans; eauto|]. exists moved. rewrite mergeA_cons, Lt.
      destruct (mergeA (is_in moved) _ r0 (x :: r1)) as (mm, mr). cbn [fst] in *. rewrite <- app_assoc in Mi. eapply in_same; eauto.
    + destruct W as (B3 & r1a & r1b & moved & m & Er & Mi & Pm).
      split; [eapply blown_trans; eauto|]. exists r1a, r1b, moved, m. splits; auto; [eapply part_same; eauto|].
      rewrite Pm. now rewrite <- app_assoc.
Qed.
(** merge of sequenced indices of two containers: the elements which conflict with none of the destination's move, the others stay;
    sorted indices yield a sorted one, where equivalent elements keep their order and the destination's come first *)
Theorem C33_box_merge p la lb nh lsA lsB l0 l1 lt : reach2 p la lb nh -> seqA p = Some lsA -> seqB p = Some lsB ->
  nth_error lsB k = Some l0 -> nth_error lsA kA = Some l1 ->
  let v x := Some (value_of p x) in
  match merge lt p with
  | Ret _ p' => quiet throws (calls p) (calls p') /\ exists moved m, merged_in p p' la lb nh lsA lsB l1 moved m /\
      Permutation m (l0 ++ moved) /\
      (strict_weak_order lt -> sorted_by v lt l0 -> sorted_by v lt l1 -> sorted_by v lt m /\ stable_of V v lt (l0 ++ moved) m)
  | Exn p' => blown throws (calls p) (calls p') /\ exists l1a l1b moved m, l1 = l1a ++ l1b /\
      merged_part p p' la lb nh lsA lsB l1a moved m /\ Permutation m (l0 ++ moved)
  | UB => False
  end.
Proof.
  intros R QA QB Nb Na v. destruct (C03_two_consistent dv S2_ R) as (? & ? & Sn).
  destruct (seq_nodup R QA QB) as (NA & NB & LB). specialize (NA _ Na) as (NA & PA). specialize (NB _ Nb) as (NB & PB).
  unfold merge. unfold bind at 1. rewrite (src_same (size boxA) (r := countA p) R) by reflexivity.
  unfold bind at 1. assert (SB : on_dst (size boxB) p = Ret (countB p) p).
  { unfold SpliceBase.on_dst, lensM, size. rewrite (callsB dv cs1 cs2 this S2_ R), (o_gs OA). now destruct p. }
  rewrite SB.
  assert (L0 := dst_links dv cs1 cs2 jn jp S2_ R QB Nb). assert (L1 := src_links R QA Na).
  assert (D0 : s_begin hB (links (snd p)) = Ret (List.hd hB l0) (links (snd p))) by (unfold s_begin, get_next; now rewrite (begin_at _ _ _ _ _ L0)).
  assert (D1 : s_begin hA (linksA (fst p)) = Ret (List.hd hA l1) (linksA (fst p))) by (unfold s_begin, get_next; now rewrite (begin_at _ _ _ _ _ L1)).
  unfold bind at 1. rewrite (dst_ro dv cs1 cs2 jn jp S2_ _ R D0). unfold bind at 1. rewrite (src_ro _ R D1).
  assert (Lf : length l0 + length l1 <= countA p + countB p).
  { rewrite (t_countA Sn), (t_countB Sn). apply Permutation_length in PA. apply Permutation_length in PB. lia. }
  assert (W := @merge_ok lt (countA p + countB p) p la lb nh lsA lsB [] l0 [] l1 R QA QB Na Nb Lf).
  destruct ((n <- merge_loop (countA p + countB p) lt (List.hd hB l0) hB (List.hd hA l1) hA ;; splice_range hB kA n hA) p) as [u p'|p'|]; auto.
  destruct W as (Q & moved & Mi). split; auto. cbn [app] in Mi. exists moved, (fst (mergeA (is_in moved) (on2 V v lt) l0 l1)). split; [exact Mi|].
  assert (F : filter (is_in moved) l1 = moved).
  { destruct Mi as (_ & _ & (ls & D & _) & _). eapply dealt_filter; eauto. inversion NA as [|? ? _ N]; subst. exact N. }
  split; [rewrite mergeA_split; now rewrite F|]. intros SW S0 S1.
  assert (AV : forall ks, all_vals v ks) by (intros ks; apply Forall_forall; intros y _; eexists; reflexivity). split.
  - apply sorted_leN. apply mergeA_sorted; auto; now apply sorted_leN.
  - rewrite <- F at 1. apply mergeA_stable; auto. now apply sorted_leN.
Qed.
End Merge.

(** ** concrete cases: the first container has the four indices of ContEx, the elements are 3 6 7 9; the second has a sequenced index
    and an ordered one, unique, the elements are 2 6 8.  *)
Definition at_ (k n : nat) : bool := n =? k.
Definition into : list (code nat) := [Sequenced nat 0 0; ContEx.by_id true].
Definition splice_ops : list (bool * op1 nat) :=
  [(false, On (Insert _ 3 None)); (false, On (Insert _ 6 None)); (false, On (Insert _ 7 None)); (false, On (Insert _ 9 None));
   (true, On (Insert _ 2 None)); (true, On (Insert _ 6 None)); (true, On (Insert _ 8 None))].
Definition ex_play t := play2 (at_ t) pick0 1 2 csA0 into splice_ops (start2 (at_ t) pick0 1 2 csA0 into 0) ([], [], []).
Definition ex t := fst (ex_play t).
Definition seqs2 {t} (p : St (box (at_ t) pick0 1 ContEx.four) * St (box (at_ t) pick0 2 into)) := 
  (sequences (at_ t) pick0 1 ContEx.four (fst p), sequences (at_ t) pick0 2 into (snd p)).
Definition seen {A t} (o : out (St (box (at_ t) pick0 1 ContEx.four) * St (box (at_ t) pick0 2 into)) A) :=
  match o with Ret _ p => (0, seqs2 p) | Exn p => (1, seqs2 p) | UB => (2, (None, None)) end.
Definition half_lt (x y : nat) : bool := x / 2 <? y / 2.
Notation ex_merge t := (@merge nat (at_ t) pick0 1 2 [ContEx.by_id true] [ContEx.by_half; RandomAccess nat 0] [] [ContEx.by_id true] 0 0 0 0 half_lt (ex t)).
Notation ex_one t pos x := (@splice_one nat (at_ t) pick0 1 2 csA0 [] [ContEx.by_id true] 0 0 pos x (ex t)).
Notation ex_range t pos i f l := (@splice_range nat (at_ t) pick0 1 2 csA0 [] [ContEx.by_id true] 0 0 pos i f l (ex t)).
Lemma into_setting : setting2 pick0 1 2 csA0 into.
Proof.
  split; [exact ContEx.four_ok| |discriminate]. split; [exact ContEx.next_node_ok| |easy|easy].
  repeat (constructor; [first [exact ContEx.nat_swo|apply ContEx.nat_heq|exact I]|]). constructor.
Qed.
Lemma ex_reach t : In t [100; 47; 41; 34] -> reach2 (at_ t) pick0 1 2 csA0 into (ex t) [6; 5; 4; 3] [9; 8; 7] [].
Proof.
  intros I. assert (P : playable2 (at_ t) pick0 1 2 csA0 into splice_ops (start2 (at_ t) pick0 1 2 csA0 into 0) ([], [], [])).
  { repeat destruct I as [<-|I]; [vm_compute; repeat split; auto..|easy]. }
  apply play2_reach in P; [|apply r2_start]. repeat destruct I as [<-|I]; [vm_compute in P |- *; exact P..|easy].
Qed.
(** the hypotheses of the theorems are met; 33 calls to user code were made, and the one numbered [t] throws, ... *)
Example ex_hyp t : In t [100; 47; 41; 34] -> setting2 pick0 1 2 csA0 into /\
  reach2 (at_ t) pick0 1 2 csA0 into (ex t) [6; 5; 4; 3] [9; 8; 7] [] /\
  seqs2 (ex t) = (Some [[3; 4; 5; 6]; [3; 4; 5; 6]; [3; 4; 5; 6]; [3; 4; 5; 6]], Some [[7; 8; 9]; [7; 8; 9]]) /\
  map (value_of (at_ t) pick0 0 1 csA0 (fst (ex t))) [3; 4; 5; 6; 7; 8; 9] = [3; 6; 7; 9; 2; 6; 8] /\
  sorted_by (fun x => Some (value_of (at_ t) pick0 0 1 csA0 (fst (ex t)) x)) half_lt [3; 4; 5; 6] /\
  sorted_by (fun x => Some (value_of (at_ t) pick0 0 1 csA0 (fst (ex t)) x)) half_lt [7; 8; 9].
Proof.
  intros I. splits; [exact into_setting|now apply ex_reach| | | |].
  all: repeat destruct I as [<-|I]; try easy; try (vm_compute; reflexivity).
  all: repeat constructor; intros va vb Ea Eb; vm_compute in Ea, Eb; injection Ea as <-; injection Eb as <-; reflexivity.
Qed.
(** ... and what happens: 6 stays where it is, elements with equal halves keep their order; if a call throws then what has moved
    has moved *)
Example ex_merges :
  seen (ex_merge 100) = (0, (Some [[4]; [4]; [4]; [4]], Some [[7; 3; 8; 5; 9; 6]; [7; 3; 8; 5; 9; 6]])) /\
  seen (ex_merge 47) = (1, (Some [[4; 6]; [4; 6]; [4; 6]; [4; 6]], Some [[7; 3; 8; 5; 9]; [7; 3; 8; 5; 9]])) /\
  seen (ex_merge 41) = (1, (Some [[4; 5; 6]; [4; 5; 6]; [4; 5; 6]; [4; 5; 6]], Some [[7; 3; 8; 9]; [7; 3; 8; 9]])).
Proof. splits; vm_compute; reflexivity. Qed.
Example ex_splices :
  seen (ex_one 100 8 5) = (0, (Some [[3; 4; 6]; [3; 4; 6]; [3; 4; 6]; [3; 4; 6]], Some [[7; 5; 8; 9]; [7; 8; 5; 9]])) /\
  seen (ex_one 100 8 4) = (0, seqs2 (ex 100)) /\ seen (ex_one 34 8 5) = (1, seqs2 (ex 100)) /\
  seen (ex_range 100 8 3 4 6) = (0, (Some [[3; 4; 6]; [3; 4; 6]; [3; 4; 6]; [3; 4; 6]], Some [[7; 5; 8; 9]; [7; 8; 5; 9]])) /\
  seen (ex_range 100 8 0 4 1) = (0, (Some [[3; 4]; [3; 4]; [3; 4]; [3; 4]], Some [[7; 5; 6; 8; 9]; [7; 8; 5; 9; 6]])) /\
  seen (ex_range 41 2 0 3 1) = (1, (Some [[4; 5; 6]; [4; 5; 6]; [4; 5; 6]; [4; 5; 6]], Some [[7; 8; 9; 3]; [7; 3; 8; 9]])).
Proof. splits; vm_compute; reflexivity. Qed.

Definition seen_calls {A t} (o : out (St (box (at_ t) pick0 1 csA0) * St (box (at_ t) pick0 2 into)) A) :=
  (seen o, match o with Ret _ p => calls (at_ t) pick0 1 csA0 (fst p) | _ => 0 end).
Lemma seen_ret A t (o : out (St (box (at_ t) pick0 1 csA0) * St (box (at_ t) pick0 2 into)) A) q n : seen_calls o = (0, q, n) ->
  exists r p', o = Ret r p' /\ seqs2 p' = q /\ calls (at_ t) pick0 1 csA0 (fst p') = n.
Proof.
  destruct o as [r p'|p'|]; unfold seen_calls, seen; intros E; [|discriminate|discriminate]. exists r, p'. split; [reflexivity|].
  split; congruence.
Qed.

(** ** the case left out of C35_box_range_partial.  A call throws when one element has moved and the position is not end(): the function
    returns as if nothing had happened, and the sequenced index is no more a list *)
Theorem C35_box_range_refuted : exists (t : nat) (p : St (box (at_ t) pick0 1 csA0) * St (box (at_ t) pick0 2 into)) la lb nh pos i first last mid1 mid2,
  setting2 pick0 1 2 csA0 into /\ reach2 (at_ t) pick0 1 2 csA0 into p la lb nh /\
  (exists lsA lsB, seqs2 p = (Some lsA, Some lsB) /\ (exists l1 l2, nth_error lsB 0 = Some (l1 ++ l2) /\ pos = List.hd 2 l2) /\
     nth_error lsA i = Some (mid1 ++ mid2) /\ first = List.hd 1 (mid1 ++ mid2) /\ last = 1) /\
  match @splice_range nat (at_ t) pick0 1 2 csA0 [] [ContEx.by_id true] 0 0 pos i first last p with
  | Ret _ p' => seqs2 p' = (Some [mid2; mid2; mid2; mid2], None) /\ mid2 <> [] /\
      blown (at_ t) (calls (at_ t) pick0 1 csA0 (fst p)) (calls (at_ t) pick0 1 csA0 (fst p'))
  | _ => False
  end.
Proof.
  exists 41, (ex 41), [6; 5; 4; 3], [9; 8; 7], [], 8, 0, 3, 1, [3], [4; 5; 6].
  assert (I : In 41 [100; 47; 41; 34]) by (cbn; auto). split; [exact into_setting|]. split; [exact (ex_reach I)|]. split.
  - exists [[3; 4; 5; 6]; [3; 4; 5; 6]; [3; 4; 5; 6]; [3; 4; 5; 6]], [[7; 8; 9]; [7; 8; 9]]. destruct (ex_hyp I) as (_ & _ & Sq & _).
    split; [exact Sq|]. split; [|repeat split]. exists [7], [8; 9]. split; reflexivity.
  - assert (E : seen_calls (ex_range 41 8 0 3 1) = (0, (Some [[4; 5; 6]; [4; 5; 6]; [4; 5; 6]; [4; 5; 6]], None), 42)) by (vm_compute; reflexivity).
    assert (C0 : calls (at_ 41) pick0 1 csA0 (fst (ex 41)) = 33) by (vm_compute; reflexivity). rewrite C0.
    destruct (seen_ret E) as (u & p' & -> & Es & Ec). split; [exact Es|]. split; [discriminate|].
    assert (B : blown (at_ 41) 33 42).
    { exists 41. split; [reflexivity|]. split; [split; [lia|]|reflexivity]. intros j J. unfold at_. apply Nat.eqb_neq. lia. }
    rewrite <- Ec in B. exact B.
Qed.

Print Assumptions C35_box_splice.
Print Assumptions C35_box_range_partial.
Print Assumptions C35_box_range_refuted.
Print Assumptions C33_box_merge.
