(** C54, C40: moving elements from another container to a place in a random access index.
    Source: /repo/include/boost/multi_index/random_access_index.hpp *)
From Coq Require Import ZArith.
From Verif Require Import Prelude SeqSpec SeqUser Layer LayerBase PosOk RndModel RndProofs RndOps RndMove RndIdx
  Stack View Container ContOk Iops Up Down History ContSpec Client Focus Transfer Conv Pair PairProps SpliceBase.
From Verif Require RndProps Splice.
Set Implicit Arguments.

Section Splice.
Variable V : Type.
Variable throws : nat -> bool.
Variable pick : list node -> node.
Variable dv : V.
Variables (hA hB : node) (csA : list (code V)).
(** the indices of the second container before and after the random access index looked at *)
Variables cs1 cs2 : list (code V).
Variable ju : nat.
Notation this := (RndProps.this V ju).
Notation csB := (Focus.all cs1 cs2 this).
Notation boxA := (box throws pick hA csA).
Notation boxB := (box throws pick hB csB).
Notation state := (St boxA * St boxB)%type.
Notation seqA p := (@sequences V throws pick hA csA (fst p)).
Notation seqB p := (@sequences V throws pick hB csB (snd p)).
Notation countA p := (@count V throws pick hA csA (fst p)).
Notation countB p := (@count V throws pick hB csB (snd p)).
Notation value_of p := (@value_of V throws pick dv hA csA (fst p)).
Notation memory p := (@memory V throws pick hA csA (fst p)).
Notation calls p := (@calls V throws pick hA csA (fst p)).
Notation reach2 := (@reach2 V throws pick hA hB csA csB).
Notation sane2 := (@sane2 V throws pick dv hA hB csA csB).
Notation setting2 := (setting2 pick hA hB csA csB).
Notation on_dst := (@SpliceBase.on_dst V throws pick hA hB csA cs1 cs2 this).
Notation own := (@RndProps.own V throws pick hB cs1 cs2 ju).
Notation array := (@RndProps.array V throws pick hB cs1 cs2 ju).
Notation move_one := (@move_one V throws pick hA hB csA csB).
Notation move_range := (@move_range V throws pick hA hB csA csB).
Notation spliced := (@SpliceBase.spliced V throws pick dv hA hB csA cs1 cs2 this).
Notation spliced_undone := (@SpliceBase.spliced_undone V throws pick dv hA hB csA cs1 cs2 this).
Notation k := (length cs1).
Implicit Types (p : state) (la lb nh l : list node).

(** ** Model *)
(** splice(position,x,i) from another container, external_splice with equal allocators, random_access_index.hpp:573-577,
    1113-1119 and 1131-1142 *)
Definition splice_one (pos x : node) : M state (node * bool) :=
  r <- move_one x ;;
  (if (snd r && negb (pos =? hB))%bool then on_dst (own (relocate_node pos (fst r))) else ret tt) ;;;
  ret r.
(** relocate(position,begin()+n,end()) *)
Definition into_place (pos : node) (n : nat) : M state unit :=
  b <- on_dst (own r_begin) ;; f <- on_dst (own (advance b (Z.of_nat n))) ;; on_dst (own (r_relocate_range pos f hB)).
(** splice(position,x,first,last), external_splice with equal allocators, 609-612, 1174-1182 and 1203-1219; [i] is the number of the
    source's index.  splice(position,x), 541-544, is the case of x.begin() and x.end() *)
Definition splice_range (pos : node) (i : nat) (first last : node) : M state unit :=
  n <- on_dst (size boxB) ;;
  try_catch (move_range i first last) (into_place pos n ;;; throw) ;;;
  into_place pos n.

(** ** Proofs *)
Hypothesis S2_ : setting2.
Notation OA := (box_ok throws dv (s2_a S2_)).
Notation OB := (box_ok throws dv (s2_b S2_)).

Lemma to_back v x l l' : placed hB this v None x l l' -> l' = l ++ [x].
Proof. intros P. cbn in P. congruence. Qed.
Lemma stays v l l' : untouched this v l l' -> l' = l.
Proof. intros P. cbn in P. congruence. Qed.

Lemma dst_array p la lb nh lsB l : reach2 p la lb nh -> seqB p = Some lsB -> nth_error lsB k = Some l -> arr (array (snd p)) (l ++ [hB]).
Proof. intros R Sq Nt. destruct (open_dst dv cs1 cs2 this S2_ R Sq Nt) as (a & (A & _) & ->). exact A. Qed.
Lemma dst_same A (m : M (St boxB) A) p la lb nh r : reach2 p la lb nh -> m (snd p) = Ret r (snd p) -> on_dst m p = Ret r p.
Proof.
  intros R E. unfold SpliceBase.on_dst, lensM. rewrite E. rewrite (callsB dv cs1 cs2 this S2_ R). rewrite (o_gs OA). now destruct p.
Qed.
Lemma dst_ro A (m : RM A) p la lb nh r : reach2 p la lb nh -> m (array (snd p)) = Ret r (array (snd p)) -> on_dst (own m) p = Ret r p.
Proof. intros R E. eapply dst_same; eauto. exact (RndProps.own_ro throws pick hB cs1 cs2 ju m (snd p) E). Qed.
(** a move done to the array of the second container *)
Lemma dst_move p la lb nh lsA lsB l l' o : reach2 p la lb nh -> seqA p = Some lsA -> seqB p = Some lsB -> nth_error lsB k = Some l ->
  sstep hB o (l, []) (l', []) -> moving o = true ->
  match on_dst (own (exec_rop o)) p with
  | Ret _ p' => reach2 p' la lb nh /\ memory p' = memory p /\ calls p' = calls p /\ seqA p' = Some lsA /\ seqB p' = Some (set_nth k l' lsB)
  | _ => False
  end.
Proof.
  intros R QA QB Nt Sp Mv. assert (Al : iallowed hB this l (Move V o)) by (cbn; eauto).
  assert (W := dst_effect dv cs1 cs2 this S2_ (Move V o) R QA QB Nt Al).
  assert (A := dst_array R QB Nt). assert (X := exec_rop_ok A Mv Sp). unfold wp in X.
  assert (Y := RndProps.own_run throws pick hB cs1 cs2 ju (exec_rop o) (snd p)).
  assert (Em : on_dst (own (exec_rop o)) p = on_dst (run_index throws pick hB csB (k, Move V o)) p).
  { unfold SpliceBase.on_dst, lensM. rewrite (RndProps.own_move throws pick hB cs1 cs2 ju (snd p) o). reflexivity. }
  rewrite <- Em in W. unfold SpliceBase.on_dst, lensM in *. destruct p as (s, d). cbn [fst snd] in *.
  destruct (own (exec_rop o) d) as [u d'|d'|]; [destruct Y as (Y & Yc)| |]; cbn [fst snd] in *; rewrite Y in X; [|easy|easy].
  destruct X as (A' & _). destruct W as (R' & M & _ & QA' & l2 & _ & QB').
  assert (Lt : k < length lsB) by (apply nth_error_Some; congruence).
  assert (A2 := dst_array R' QB' (set_nth_at l2 lsB Lt)). cbn [fst snd] in A2.
  assert (l2 = l'). { apply (app_inv_tail [hB]). eapply RndProps.arr_fun; eauto. }
  subst l2. splits; auto.
  assert (B1 := callsB dv cs1 cs2 this S2_ R'). assert (B2 := callsB dv cs1 cs2 this S2_ R). cbn [fst snd] in *. unfold Client.calls in *. rewrite <- B1, <- B2. exact Yc.
Qed.

(** splice of one element: it moves iff it is in conflict with no element of the destination, and then goes where it has been sent to;
    otherwise, and if user code throws, the two containers stay as they are *)
Theorem C54_splice p la lb nh lsA lsB l1 l2 x : reach2 p la lb nh -> seqA p = Some lsA -> seqB p = Some lsB ->
  nth_error lsB k = Some (l1 ++ l2) -> In x la ->
  match splice_one (List.hd hB l2) x p with
  | Ret (y, true) p' => y = x /\ (forall z, In z lb -> ~ conflict csB (value_of p x) (value_of p z)) /\
      memory p' = memory p /\ quiet throws (calls p) (calls p') /\ seqA p' = Some (map (remove Nat.eq_dec x) lsA) /\
      (exists ls, each (fun c => placed hB c (value_of p) None x) csB lsB ls /\ seqB p' = Some (set_nth k (l1 ++ x :: l2) ls)) /\
      reach2 p' (remove Nat.eq_dec x la) (x :: lb) nh
  | Ret (y, false) p' => In y lb /\ conflict csB (value_of p x) (value_of p y) /\
      memory p' = memory p /\ quiet throws (calls p) (calls p') /\ seqA p' = Some lsA /\
      (exists ls, each (fun c => untouched c (value_of p)) csB lsB ls /\ seqB p' = Some ls /\ nth_error ls k = Some (l1 ++ l2)) /\
      reach2 p' la lb nh
  | Exn p' => blown throws (calls p) (calls p') /\ memory p' = memory p /\ seqA p' = Some lsA /\
      (exists ls, each (fun c => untouched c (value_of p)) csB lsB ls /\ seqB p' = Some ls /\ nth_error ls k = Some (l1 ++ l2)) /\
      reach2 p' la lb nh
  | UB => False
  end.
Proof.
  intros R QA QB Nt I. assert (W := C49_transfer dv S2_ x R QA QB I).
  assert (Q : match move_one x p with Ret _ p' => quiet throws (calls p) (calls p') | _ => True end).
  { destruct (reach2_ok dv S2_ R) as ((a & b & T) & _).
    assert (X := @move_one_spec V throws pick dv hA hB csA csB (s2_a S2_) (s2_b S2_) p a b la lb nh x T I). unfold wp in X.
    destruct (move_one x p); auto. apply X. }
  destruct (countB_len dv cs1 cs2 this S2_ R QB Nt) as (C & N & P).
  assert (R1 : forall y b p', move_one x p = Ret (y, b) p' -> reach2 p' (if b then remove Nat.eq_dec x la else la) (if b then x :: lb else lb) nh).
  { intros y b p' E. refine (r2_ret (false, One V x) (r := Pair y b) R _ _ _); [exact I| |].
    - unfold run2, run1. cbn [fst snd]. unfold bind. rewrite E. reflexivity.
    - cbn. destruct b; reflexivity. }
  unfold splice_one, bind at 1. destruct (move_one x p) as [(y, b) p1|p1|] eqn:E; [| |exact W].
  - specialize (R1 _ _ _ eq_refl). destruct b; cbn [snd fst andb].
    + destruct W as (-> & NC & M & C1 & C2 & QA1 & ls & QB1 & Ea).
      destruct (each_nth k Ea (this_at cs1 cs2 this) Nt) as (l' & Nt1 & Pl). cbn in Pl. subst l'.
      destruct (Nat.eqb_spec (List.hd hB l2) hB) as [Ep|Ep]; cbn [negb].
      * apply (Splice.pos_end _ _ N) in Ep. subst l2. unfold bind, ret. splits; auto. exists ls. split; auto. rewrite app_nil_r in *.
        rewrite QB1. f_equal. symmetry. now apply set_nth_id.
      * assert (Sp : sstep hB (SRelocate (List.hd hB l2) x) ((l1 ++ l2) ++ [x], []) (l1 ++ x :: l2, [])).
        { apply (st_relocate hB (l1 ++ l2) x []). now rewrite app_nil_r. }
        assert (W2 := dst_move R1 QA1 QB1 Nt1 Sp eq_refl). cbn [exec_rop] in W2. unfold r_relocate in W2.
        assert (Nx : (List.hd hB l2 =? x) = false).
        { apply Splice.split_at with (l1 := l1); auto. intros Ix. destruct (countB_len dv cs1 cs2 this S2_ R1 QB1 Nt1) as (_ & N1 & _).
          change (hB :: (l1 ++ l2) ++ [x]) with ((hB :: l1 ++ l2) ++ [x]) in N1. apply NoDup_app_iff in N1 as (_ & _ & D). apply (D x); auto. now left. }
        rewrite Nx in W2. unfold bind at 1. destruct (on_dst (own (relocate_node (List.hd hB l2) x)) p1) as [u p2|p2|]; [|easy|easy].
        destruct W2 as (R2 & M2 & Cl2 & QA2 & QB2). unfold ret. splits; auto; try congruence.
        exists ls. auto.
    + destruct W as (Iy & Cf & M & _ & _ & QA1 & ls & QB1 & Ea). unfold bind, ret. splits; auto. exists ls. splits; auto.
      destruct (each_nth k Ea (this_at cs1 cs2 this) Nt) as (l' & Nt1 & Pl). cbn in Pl. now subst l'.
  - destruct W as (B & M & _ & _ & QA1 & ls & QB1 & Ea). splits; auto.
    + exists ls. splits; auto. destruct (each_nth k Ea (this_at cs1 cs2 this) Nt) as (l' & Nt1 & Pl). cbn in Pl. now subst l'.
    + refine (r2_exn (false, One V x) R _ _ _); [exact I| |reflexivity].
      unfold run2, run1. cbn [fst snd]. unfold bind. now rewrite E.
Qed.

(** the last elements are put before a position *)
Lemma into_place_ok p la lb nh lsA ls l1 l2 moved : reach2 p la lb nh -> seqA p = Some lsA -> seqB p = Some ls ->
  nth_error ls k = Some ((l1 ++ l2) ++ moved) ->
  match into_place (List.hd hB l2) (length (l1 ++ l2)) p with
  | Ret _ p' => reach2 p' la lb nh /\ memory p' = memory p /\ calls p' = calls p /\ seqA p' = Some lsA /\
      seqB p' = Some (set_nth k (l1 ++ moved ++ l2) ls)
  | _ => False
  end.
Proof.
  intros R QA QB Nt. assert (A := dst_array R QB Nt). set (n := length (l1 ++ l2)).
  destruct (@RndProps.arr_get _ _ _ 0 A) as (E0 & U0); [lia|]. destruct (@RndProps.arr_get _ _ _ n A) as (En & Un); [unfold n; rewrite (app_length (l1 ++ l2)); lia|].
  set (l := (l1 ++ l2) ++ moved) in *. set (r := array (snd p)) in *.
  assert (D1 : r_begin r = Ret (nth 0 l hB) r).
  { unfold r_begin, bind, a_begin, rd. rewrite Nat.add_0_r in E0. now rewrite E0. }
  assert (D2 : advance (nth 0 l hB) (Z.of_nat n) r = Ret (nth n l hB) r).
  { unfold advance, bind, get_up. rewrite U0. destruct (Z.ltb_spec (Z.of_nat (rbs r + 0) + Z.of_nat n) 0); [lia|].
    replace (Z.to_nat (Z.of_nat (rbs r + 0) + Z.of_nat n)) with (rbs r + n) by lia. unfold rd. now rewrite En. }
  unfold into_place, bind at 1. rewrite (dst_ro _ R D1). unfold bind at 1. rewrite (dst_ro _ R D2).
  assert (Eh : nth n l hB = List.hd hB (moved ++ [])).
  { unfold n, l. rewrite app_nth2, Nat.sub_diag, app_nil_r by lia. now destruct moved. }
  rewrite Eh. assert (Sp : sstep hB (SRelocateRange (List.hd hB l2) (List.hd hB (moved ++ [])) (List.hd hB [])) ((l1 ++ l2) ++ moved ++ [], []) (l1 ++ moved ++ l2, [])).
  { apply (st_relocate_range hB (l1 ++ l2) moved [] l1 l2). now rewrite app_nil_r. }
  rewrite app_nil_r in Sp |- *. exact (dst_move R QA QB Nt Sp eq_refl).
Qed.

(** splice of a range: the elements which have moved, all of them or those before an exception, are where they have been sent to *)
Theorem C54_range p la lb nh lsA lsB i a mid b l1 l2 first last : reach2 p la lb nh -> seqA p = Some lsA -> seqB p = Some lsB ->
  nth_error lsA i = Some (a ++ mid ++ b) -> first = List.hd hA (mid ++ b) -> last = List.hd hA b -> nth_error lsB k = Some (l1 ++ l2) ->
  match splice_range (List.hd hB l2) i first last p with
  | Ret _ p' => quiet throws (calls p) (calls p') /\ exists moved, spliced p p' la lb nh lsA lsB mid moved l1 l2
  | Exn p' => blown throws (calls p) (calls p') /\ exists mid1 x mid2 moved, mid = mid1 ++ x :: mid2 /\
      spliced_undone p p' la lb nh lsA lsB mid1 moved l1 l2
  | UB => False
  end.
Proof.
  intros R QA QB Na -> -> Nb. assert (W := range_moved dv cs1 cs2 this S2_ to_back stays i a mid b R QA QB Na Nb).
  destruct (countB_len dv cs1 cs2 this S2_ R QB Nb) as (C & N & P).
  unfold splice_range, bind at 1. rewrite (dst_same (size boxB) (r := countB p) R) by reflexivity. rewrite C.
  unfold try_catch, bind at 1. destruct (move_range i (List.hd hA (mid ++ b)) (List.hd hA b) p) as [u p1|p1|] eqn:E; [| |exact W].
  - destruct W as (Q & moved & M & Inc & (ls & D & QB1) & QA1 & la' & lb' & R1 & P1 & P2).
    assert (Nt1 := dealt_nth cs1 cs2 this to_back stays D Nb). rewrite app_nil_r, (set_nth_id k ls Nt1) in QB1.
    assert (W := into_place_ok l1 l2 moved R1 QA1 QB1 Nt1). destruct (into_place _ _ p1) as [u2 p2|p2|]; [|easy|easy].
    destruct W as (R2 & M2 & Cl2 & QA2 & QB2). split; [now rewrite Cl2|]. exists moved. unfold SpliceBase.spliced. splits; auto; try congruence.
    + exists ls. auto.
    + exists la', lb'. auto.
  - destruct W as (B & mid1 & x & mid2 & moved & Em & M & Inc & (ls & ls' & D & U & QB1) & QA1 & la' & lb' & R1 & P1 & P2).
    assert (Nt1 := dealt_nth cs1 cs2 this to_back stays D Nb). destruct (each_nth k U (this_at cs1 cs2 this) Nt1) as (l' & Nt2 & Pl). apply stays in Pl. subst l'.
    rewrite app_nil_r, (set_nth_id k ls' Nt2) in QB1.
    assert (W := into_place_ok l1 l2 moved R1 QA1 QB1 Nt2). unfold bind at 1. destruct (into_place _ _ p1) as [u2 p2|p2|]; [|easy|easy].
    destruct W as (R2 & M2 & Cl2 & QA2 & QB2). unfold throw. split; [now rewrite Cl2|]. exists mid1, x, mid2, moved. split; auto. unfold SpliceBase.spliced_undone.
    splits; auto; try congruence.
    + exists ls, ls'. auto.
    + exists la', lb'. auto.
Qed.
End Splice.

(** ** C40: merge *)
Section Merge.
Variable V : Type.
Variable throws : nat -> bool.
Variable pick : list node -> node.
Variable dv : V.
Variables (hA hB : node).
(** a random access index in each container *)
Variables csA1 csA2 cs1 cs2 : list (code V).
Variables ju' ju : nat.
Notation thisA := (RndProps.this V ju').
Notation this := (RndProps.this V ju).
Notation csA := (Focus.all csA1 csA2 thisA).
Notation csB := (Focus.all cs1 cs2 this).
Notation boxA := (box throws pick hA csA).
Notation boxB := (box throws pick hB csB).
Notation state := (St boxA * St boxB)%type.
Notation seqA p := (@sequences V throws pick hA csA (fst p)).
Notation seqB p := (@sequences V throws pick hB csB (snd p)).
Notation countB p := (@count V throws pick hB csB (snd p)).
Notation value_of p := (@value_of V throws pick dv hA csA (fst p)).
Notation memory p := (@memory V throws pick hA csA (fst p)).
Notation calls p := (@calls V throws pick hA csA (fst p)).
Notation reach2 := (@reach2 V throws pick hA hB csA csB).
Notation setting2 := (setting2 pick hA hB csA csB).
Notation on_dst := (@SpliceBase.on_dst V throws pick hA hB csA cs1 cs2 this).
Notation on_src := (@Pair.on_src V throws pick hA hB csA csB).
Notation ownA := (@RndProps.own V throws pick hA csA1 csA2 ju').
Notation arrayA := (@RndProps.array V throws pick hA csA1 csA2 ju').
Notation splice_range := (@splice_range V throws pick hA hB csA cs1 cs2 ju).
Notation spliced := (@SpliceBase.spliced V throws pick dv hA hB csA cs1 cs2 this).
Notation spliced_undone := (@SpliceBase.spliced_undone V throws pick dv hA hB csA cs1 cs2 this).
Notation dealt p := (merged (fun x y => conflict csB (value_of p x) (value_of p y)) (fun ls x => each (fun c => placed hB c (value_of p) None x) csB ls)
                       (each (fun c => untouched c (value_of p)) csB)).
Notation k := (length cs1).
Notation kA := (length csA1).
Implicit Types (p : state) (la lb nh l : list node).

(** merge(x,comp), random_access_index.hpp:678-688; merge(x), 667-676, with std::less *)
Definition merge (lt : V -> V -> bool) : M state unit :=
  n <- on_dst (size boxB) ;;
  first <- on_src (ownA r_begin) ;;
  splice_range hB kA first hA ;;;
  on_dst (run_index throws pick hB csB (k, MergeRnd lt n)).

Hypothesis S2_ : setting2.
Notation OA := (box_ok throws dv (s2_a S2_)).
Notation OB := (box_ok throws dv (s2_b S2_)).

Lemma sane_seqs p la lb nh lsA : reach2 p la lb nh -> seqA p = Some lsA -> (forall l, In l lsA -> NoDup l) /\ length lsA = length csA.
Proof.
  intros R QA. destruct (C03_two_consistent dv S2_ R) as (ls1 & ls2 & Sn). rewrite (t_seqA Sn) in QA. injection QA as ->.
  split; [|apply (t_lenA Sn)]. intros l I. assert (P := t_permA Sn). rewrite Forall_forall in P. apply (P l I).
Qed.
(** merge of random access indices of two containers: the elements which conflict with none of the destination's move, the others stay;
    sorted indices yield a sorted one, where equivalent elements keep their order and the destination's come first.  If a comparison
    throws then the elements have moved and come last. *)
Theorem C40_box_merge p la lb nh lsA lsB l0 l1 lt : reach2 p la lb nh -> seqA p = Some lsA -> seqB p = Some lsB ->
  nth_error lsB k = Some l0 -> nth_error lsA kA = Some l1 ->
  let v x := Some (value_of p x) in
  match merge lt p with
  | Ret _ p' => quiet throws (calls p) (calls p') /\ exists moved m ls la' lb', memory p' = memory p /\ incl moved l1 /\
      dealt p lb lsB l1 moved ls /\ seqB p' = Some (set_nth k m ls) /\ seqA p' = Some (map (without moved) lsA) /\
      reach2 p' la' lb' nh /\ Permutation la' (without moved la) /\ Permutation lb' (moved ++ lb) /\
      Permutation m (l0 ++ moved) /\
      (strict_weak_order lt -> sorted_by v lt l0 -> sorted_by v lt l1 -> sorted_by v lt m /\ stable_of V v lt (l0 ++ moved) m)
  | Exn p' => (exists mid1 x mid2 moved, l1 = mid1 ++ x :: mid2 /\ blown throws (calls p) (calls p') /\
      spliced_undone p p' la lb nh lsA lsB mid1 moved l0 []) \/
      (exists moved, spliced p p' la lb nh lsA lsB l1 moved l0 [])
  | UB => False
  end.
Proof.
  intros R QA QB Nb Na v. destruct (countB_len dv cs1 cs2 this S2_ R QB Nb) as (C & N & P).
  unfold merge, bind at 1. rewrite (dst_same dv cs1 cs2 ju S2_ (size boxB) (r := countB p) R) by reflexivity.
  assert (A : arr (arrayA (fst p)) (l1 ++ [hA])).
  { destruct (reach2_ok dv S2_ R) as ((a & b & T) & _). destruct T as (_ & G & _).
    assert (Vw := good_views throws pick csA G). rewrite Vw in QA. injection QA as <-.
    destruct (rep_at throws pick csA1 csA2 thisA G Na) as (r & (A & _) & ->). exact A. }
  assert (D1 : on_src (ownA r_begin) p = Ret (List.hd hA l1) p).
  { destruct (@RndProps.arr_get _ _ _ 0 A) as (E0 & _); [lia|]. rewrite Nat.add_0_r in E0.
    assert (E : ownA r_begin (fst p) = Ret (List.hd hA l1) (fst p)).
    { apply RndProps.own_ro. unfold r_begin, bind, a_begin, rd. rewrite E0. now destruct l1. }
    unfold Pair.on_src, lensM. rewrite E. rewrite <- (callsB dv cs1 cs2 this S2_ R). rewrite (o_gs OB). now destruct p. }
  unfold bind at 1. rewrite D1. rewrite <- (app_nil_r l1) in Na. rewrite <- (app_nil_r l0) in Nb.
  assert (W := C54_range dv cs1 cs2 ju S2_ kA [] l1 [] l0 [] R QA QB Na eq_refl eq_refl Nb). rewrite app_nil_r in W. cbn [List.hd] in W.
  unfold bind at 1. destruct (splice_range hB kA (List.hd hA l1) hA p) as [u p1|p1|]; [| |exact W].
  - destruct W as (Q & moved & Sd). assert (Sd0 := Sd). destruct Sd as (M & Inc & (ls & D & QB1) & QA1 & la' & lb' & R1 & P1 & P2).
    rewrite app_nil_r in QB1, Nb. assert (Nt1 := dealt_nth cs1 cs2 this (@to_back V hB ju) (@stays V ju) D Nb). rewrite (set_nth_id k ls Nt1) in QB1.
    rewrite C. assert (Al : iallowed hB this (l0 ++ moved) (MergeRnd lt (length l0))) by (cbn; rewrite app_length; lia).
    assert (W := dst_effect dv cs1 cs2 this S2_ (MergeRnd lt (length l0)) R1 QA1 QB1 Nt1 Al).
    assert (V1 : value_of p1 = value_of p) by (exact (vals_mem dv _ _ M)). rewrite V1 in W.
    destruct (on_dst (run_index throws pick hB csB (k, MergeRnd lt (length l0))) p1) as [u2 p2|p2|]; [| |exact W].
    + destruct W as (R2 & M2 & Q2 & QA2 & m & Em & QB2). split; [eapply quiet_trans; eauto|].
      exists moved, m, ls, la', lb'. splits; auto; try congruence.
      * cbn in Em. rewrite firstn_app, Nat.sub_diag, firstn_all, app_nil_r, skipn_app, Nat.sub_diag, skipn_all in Em. cbn [app skipn] in Em.
        subst m. apply merged_perm.
      * cbn in Em. rewrite firstn_app, Nat.sub_diag, firstn_all, app_nil_r, skipn_app, Nat.sub_diag, skipn_all in Em. cbn [app skipn] in Em.
        subst m. intros SW S0 S1.
        assert (AV : forall ks, all_vals v ks) by (intros ks; apply Forall_forall; intros y _; eexists; reflexivity).
        assert (Nd : NoDup l1). { destruct (sane_seqs R QA) as (Pa & _). rewrite app_nil_r in Na. apply (Pa _ (nth_error_In _ _ Na)). }
        assert (F := Splice.merged_filter D Nd).
        assert (Sm : StronglySorted (leN V v lt) moved). { rewrite <- F. exact (SS_filter V v throws (fun _ => true) lt _ l1 (proj1 (sorted_leN V v lt l1) S1)). }
        unfold RndOps.merged. change (fun x y => lt (value_of p x) (value_of p y)) with (on2 V v lt). split.
        -- apply sorted_leN. apply mergeA_sorted; auto; now apply sorted_leN.
        -- assert (X := @mergeA_stable V v (fun _ => true) lt SW l0 moved (AV l0)).
           replace (filter (fun _ => true) moved) with moved in X by (clear; induction moved; cbn; congruence).
           apply X. now apply sorted_leN.
    + destruct W as (R2 & M2 & Q2 & QA2 & m & Em & QB2). right. exists moved. cbn in Em. subst m. unfold SpliceBase.spliced. splits; auto; try congruence.
      * exists ls. rewrite app_nil_r. auto.
      * exists la', lb'. auto.
  - destruct W as (B & mid1 & x & mid2 & moved & Em & Sd). left. exists mid1, x, mid2, moved. auto.
Qed.
End Merge.

(** ** concrete cases: as in Splice.v, with a random access index in the second container *)
Notation at_ := Splice.at_.
Notation half_lt := Splice.half_lt.
Definition into : list (code nat) := [RandomAccess nat 0; ContEx.by_id true].
Definition ex_play t := play2 (at_ t) pick0 1 2 csA0 into Splice.splice_ops (start2 (at_ t) pick0 1 2 csA0 into 0) ([], [], []).
Definition ex t := fst (ex_play t).
Definition seqs2 {t} (p : St (box (at_ t) pick0 1 csA0) * St (box (at_ t) pick0 2 into)) :=
  (sequences (at_ t) pick0 1 csA0 (fst p), sequences (at_ t) pick0 2 into (snd p)).
Definition seen {A t} (o : out (St (box (at_ t) pick0 1 csA0) * St (box (at_ t) pick0 2 into)) A) :=
  match o with Ret _ p => (0, seqs2 p) | Exn p => (1, seqs2 p) | UB => (2, (None, None)) end.
Notation ex_merge t := (@merge nat (at_ t) pick0 1 2 [ContEx.by_id true; Sequenced nat 0 0; ContEx.by_half] [] [] [ContEx.by_id true] 0 0 half_lt (ex t)).
Notation ex_one t pos x := (@splice_one nat (at_ t) pick0 1 2 csA0 [] [ContEx.by_id true] 0 pos x (ex t)).
Notation ex_range t pos i f l := (@splice_range nat (at_ t) pick0 1 2 csA0 [] [ContEx.by_id true] 0 pos i f l (ex t)).
Lemma into_setting : setting2 pick0 1 2 csA0 into.
Proof.
  split; [exact ContEx.four_ok| |discriminate]. split; [exact ContEx.next_node_ok| |easy|easy].
  repeat (constructor; [first [exact ContEx.nat_swo|apply ContEx.nat_heq|exact I]|]). constructor.
Qed.
Lemma ex_reach t : In t [100; 47; 41; 34] -> reach2 (at_ t) pick0 1 2 csA0 into (ex t) [6; 5; 4; 3] [9; 8; 7] [].
Proof.
  intros I. assert (P : playable2 (at_ t) pick0 1 2 csA0 into Splice.splice_ops (start2 (at_ t) pick0 1 2 csA0 into 0) ([], [], [])).
  { repeat destruct I as [<-|I]; [vm_compute; repeat split; auto..|easy]. }
  apply play2_reach in P; [|apply r2_start]. repeat destruct I as [<-|I]; [vm_compute in P |- *; exact P..|easy].
Qed.
(** the hypotheses of the theorems are met; 34 calls to user code were made, and the one numbered [t] throws, ... *)
Example ex_hyp t : In t [100; 47; 41; 34] -> setting2 pick0 1 2 csA0 into /\
  reach2 (at_ t) pick0 1 2 csA0 into (ex t) [6; 5; 4; 3] [9; 8; 7] [] /\
  seqs2 (ex t) = (Some [[3; 4; 5; 6]; [3; 4; 5; 6]; [3; 4; 5; 6]; [3; 4; 5; 6]], Some [[7; 8; 9]; [7; 8; 9]]) /\
  map (value_of (at_ t) pick0 0 1 csA0 (fst (ex t))) [3; 4; 5; 6; 7; 8; 9] = [3; 6; 7; 9; 2; 6; 8] /\
  sorted_by (fun x => Some (value_of (at_ t) pick0 0 1 csA0 (fst (ex t)) x)) half_lt [3; 4; 5; 6] /\
  sorted_by (fun x => Some (value_of (at_ t) pick0 0 1 csA0 (fst (ex t)) x)) half_lt [7; 8; 9].
Proof.
  intros I. splits; [exact into_setting|now apply ex_reach| | | |].
  all: repeat destruct I as [<-|I]; try easy; try (vm_compute; reflexivity).
  all: repeat constructor; intros va vb Ea Eb; vm_compute in Ea, Eb; injection Ea as <-; injection Eb as <-; reflexivity.
Qed.
(** ... and what happens.  Merging, call number 47 is a comparison and 41 takes place while elements are moved *)
Example ex_merges :
  seen (ex_merge 100) = (0, (Some [[4]; [4]; [4]; [4]], Some [[7; 3; 8; 5; 9; 6]; [7; 3; 8; 5; 9; 6]])) /\
  seen (ex_merge 47) = (1, (Some [[4]; [4]; [4]; [4]], Some [[7; 8; 9; 3; 5; 6]; [7; 3; 8; 5; 9; 6]])) /\
  seen (ex_merge 41) = (1, (Some [[4; 5; 6]; [4; 5; 6]; [4; 5; 6]; [4; 5; 6]], Some [[7; 8; 9; 3]; [7; 3; 8; 9]])).
Proof. splits; vm_compute; reflexivity. Qed.
Example ex_splices :
  seen (ex_one 100 8 5) = (0, (Some [[3; 4; 6]; [3; 4; 6]; [3; 4; 6]; [3; 4; 6]], Some [[7; 5; 8; 9]; [7; 8; 5; 9]])) /\
  seen (ex_one 100 8 4) = (0, seqs2 (ex 100)) /\ seen (ex_one 34 8 5) = (1, seqs2 (ex 100)) /\
  seen (ex_range 100 8 3 4 6) = (0, (Some [[3; 4; 6]; [3; 4; 6]; [3; 4; 6]; [3; 4; 6]], Some [[7; 5; 8; 9]; [7; 8; 5; 9]])) /\
  seen (ex_range 100 8 0 4 1) = (0, (Some [[3; 4]; [3; 4]; [3; 4]; [3; 4]], Some [[7; 5; 6; 8; 9]; [7; 8; 5; 9; 6]])) /\
  seen (ex_range 41 8 0 3 1) = (1, (Some [[4; 5; 6]; [4; 5; 6]; [4; 5; 6]; [4; 5; 6]], Some [[7; 3; 8; 9]; [7; 3; 8; 9]])).
Proof. splits; vm_compute; reflexivity. Qed.

Print Assumptions C54_splice.
Print Assumptions C54_range.
Print Assumptions C40_box_merge.
