(** Two containers: an operation on an index of the one elements are moved to, which leaves the elements alone. *)
From Verif Require Import Prelude SeqSpec Layer LayerBase Stack View Container ContOk Iops Up Down History ContSpec Client Focus
  Transfer Conv Pair PairProps.
From Verif Require RndMove.
Set Implicit Arguments.

Section Base.
Variable V : Type.
Variable throws : nat -> bool.
Variable pick : list node -> node.
Variable dv : V.
Variables (hA hB : node) (csA : list (code V)).
(** the indices of the second container before and after the one looked at *)
Variables cs1 cs2 : list (code V).
Variable this : code V.
Notation csB := (Focus.all cs1 cs2 this).
Notation boxA := (box throws pick hA csA).
Notation boxB := (box throws pick hB csB).
Notation state := (St boxA * St boxB)%type.
Notation seqA p := (@sequences V throws pick hA csA (fst p)).
Notation seqB p := (@sequences V throws pick hB csB (snd p)).
Notation countA p := (@count V throws pick hA csA (fst p)).
Notation countB p := (@count V throws pick hB csB (snd p)).
Notation value_of p := (@value_of V throws pick dv hA csA (fst p)).
Notation memory p := (@memory V throws pick hA csA (fst p)).
Notation calls p := (@calls V throws pick hA csA (fst p)).
Notation reach2 := (@reach2 V throws pick hA hB csA csB).
Notation run2 := (@run2 V throws pick hA hB csA csB).
Notation allowed2 := (@allowed2 V throws pick hA hB csA csB).
Notation sane2 := (@sane2 V throws pick dv hA hB csA csB).
Notation setting2 := (setting2 pick hA hB csA csB).
Notation two := (@two V throws pick dv hA hB csA csB).
Notation S0 h cs := (spec h (fun _ (_ : unit) => False) (fun _ a => a) cs).
Notation rep0 h cs := (srep throws pick h (mem_world V) (fun _ (_ : unit) => True) (fun _ _ => False) (fun _ a => a) cs).
Notation goodB := (@ContOk.good V dv hB boxB (S0 hB csB) (rep0 hB csB)).
Notation supB := (stack throws pick hB (mem_world V) cs2).
Notation this_of := (@down V throws pick hB (mem_world V) (this :: cs2) cs1).
Notation S2 := (spec hB (fun _ (_ : unit) => False) (fun _ a => a) cs2).
Notation rep2 := (srep throws pick hB (mem_world V) (fun _ (_ : unit) => True) (fun _ _ => False) (fun _ a => a) cs2).
Implicit Types (p : state) (la lb nh l : list node).

(** an operation of the second container alone; the memory is common to both *)
Definition on_dst {A} (m : M (St boxB) A) : M state A :=
  lensM snd (fun d p => (bset boxA (bget boxB d) (fst p), d)) m.

Hypothesis S2_ : setting2.
Notation OA := (box_ok throws dv (s2_a S2_)).
Notation OB := (box_ok throws dv (s2_b S2_)).

Lemma dst_run o p : on_dst (@exec_box V throws pick hB csB o) p = run2 (true, On o) p.
Proof.
  destruct p as (s, d). unfold on_dst, Pair.run2, run1, on_src, lensM. cbn [fst snd].
  destruct (@exec_box V throws pick hB csB o d); reflexivity.
Qed.
(** histories go on with operations of the second container *)
Lemma dst_ret p la lb nh o r p' : reach2 p la lb nh -> @allowed_box V throws pick hB csB (snd p) lb nh o ->
  on_dst (@exec_box V throws pick hB csB o) p = Ret r p' -> reach2 p' la (fst (ledger o (Some r) lb nh)) (snd (ledger o (Some r) lb nh)).
Proof. intros R A E. rewrite dst_run in E. eapply r2_ret; [exact R| |exact E|reflexivity]. exact A. Qed.
Lemma dst_exn p la lb nh o p' : reach2 p la lb nh -> @allowed_box V throws pick hB csB (snd p) lb nh o ->
  on_dst (@exec_box V throws pick hB csB o) p = Exn p' -> reach2 p' la (fst (ledger o None lb nh)) (snd (ledger o None lb nh)).
Proof. intros R A E. rewrite dst_run in E. eapply r2_exn; [exact R| |exact E|reflexivity]. exact A. Qed.

(** what there is to know about the index *)
Lemma rep_at d b lk out l : goodB d b lk out -> nth_error (els (S0 hB csB) b) (length cs1) = Some l ->
  exists a, @rep_of V throws pick hB this supB S2 rep2 (this_of d) a /\ l = kel (kind_of hB this) (fst a).
Proof.
  intros G Nt. exists (adown hB (this :: cs2) (fun _ (_ : unit) => False) (fun _ a => a) cs1 b).
  assert (Rd := @down_rep V throws pick hB (mem_world V) (this :: cs2) unit _ _ _ cs1 d b (g_rep G)).
  assert (El := down_els hB (this :: cs2) (fun _ (_ : unit) => False) (fun _ a => a) cs1 b 0).
  rewrite Nat.add_0_r in El. cbn in El. unfold Focus.all in Nt. rewrite Nt in El. injection El as El. auto.
Qed.
Lemma open_dst p la lb nh lsB l : reach2 p la lb nh -> seqB p = Some lsB -> nth_error lsB (length cs1) = Some l ->
  exists a, @rep_of V throws pick hB this supB S2 rep2 (this_of (snd p)) a /\ l = kel (kind_of hB this) (fst a).
Proof.
  intros R Sq Nt. destruct (reach2_ok dv S2_ R) as ((a & b & T) & _). destruct T as (_ & _ & G).
  assert (Vw := good_views throws pick csB G). rewrite Vw in Sq. injection Sq as <-. eapply rep_at; eauto.
Qed.
Lemma countB_len p la lb nh lsB l : reach2 p la lb nh -> seqB p = Some lsB -> nth_error lsB (length cs1) = Some l ->
  countB p = length l /\ NoDup (hB :: l) /\ Permutation l lb.
Proof.
  intros R Sq Nt. destruct (C03_two_consistent dv S2_ R) as (lsA & ls & Sn). rewrite (t_seqB Sn) in Sq. injection Sq as ->.
  assert (P := t_permB Sn). rewrite Forall_forall in P. destruct (P l) as (N & P1); [eapply nth_error_In; eauto|]. splits; auto.
  - rewrite (t_countB Sn). symmetry. now apply Permutation_length.
  - constructor; auto. intros I. assert (D := t_dist Sn). apply (Permutation_in _ P1) in I.
    inversion D as [|? ? _ D1]; subst. inversion D1 as [|? ? _ D2]; subst. inversion D2 as [|? ? N2 _]; subst. apply N2.
    rewrite !in_app_iff. auto.
Qed.
Lemma callsB p la lb nh : reach2 p la lb nh -> bget boxB (snd p) = bget boxA (fst p).
Proof. intros R. destruct (C03_two_consistent dv S2_ R) as (lsA & ls & Sn). symmetry. apply (t_one Sn). Qed.

(** an operation which leaves the elements alone *)
Theorem dst_effect p la lb nh lsA lsB l o : reach2 p la lb nh -> seqA p = Some lsA -> seqB p = Some lsB ->
  nth_error lsB (length cs1) = Some l -> iallowed hB this l o ->
  match on_dst (run_index throws pick hB csB (length cs1, o)) p with
  | Ret _ p' => reach2 p' la lb nh /\ memory p' = memory p /\ quiet throws (calls p) (calls p') /\ seqA p' = Some lsA /\
      exists l', ieffect hB this (value_of p) o l l' /\ seqB p' = Some (set_nth (length cs1) l' lsB)
  | Exn p' => reach2 p' la lb nh /\ memory p' = memory p /\ calls p <= calls p' /\ seqA p' = Some lsA /\
      exists l', ieffect_exn o l l' /\ seqB p' = Some (set_nth (length cs1) l' lsB)
  | UB => False
  end.
Proof.
  intros R QA QB Nt Al. destruct (reach2_ok dv S2_ R) as ((a & b & T) & Lv). assert (T0 := T). destruct T as (E & GA & GB).
  assert (VA := good_views throws pick csA GA). rewrite VA in QA. injection QA as <-.
  assert (VB := good_views throws pick csB GB). assert (QB0 := QB). rewrite VB in QB. injection QB as <-.
  assert (At : can_index throws pick hB csB (snd p) (length cs1, o)).
  { exists this, (els (S0 hB csB) b), l. splits; auto. apply this_at. }
  destruct (at_good (s_pick (s2_b S2_)) (mem_world_ok V) (s_codes (s2_b S2_)) GB At) as (c & l0 & Nc & Nl & _ & W).
  cbn [fst snd] in Nc, Nl, W. rewrite this_at in Nc. injection Nc as <-. rewrite Nt in Nl. injection Nl as <-.
  unfold wp in W. change (at_index throws pick hB (mem_world V) csB (length cs1) o (snd p)) with (run_index throws pick hB csB (length cs1, o) (snd p)) in W.
  assert (Al2 : @allowed_box V throws pick hB csB (snd p) lb nh (Index V (length cs1, o))) by exact At.
  destruct p as (s, d). cbn [fst snd] in *.
  assert (K : forall d' b', goodB d' b' lb (hA :: la ++ nh) -> mem (bget boxB d') = mem (bget boxB d) ->
    seqA (bset boxA (bget boxB d') s, d') = Some (els (S0 hA csA) a) /\ memory (bset boxA (bget boxB d') s, d') = memory (s, d) /\
    calls (bset boxA (bget boxB d') s, d') = tk (bget boxB d')).
  { intros d' b' G' M'. cbn [fst snd]. unfold Client.memory, Client.calls. rewrite !(o_bb OA). splits; auto; [|congruence].
    assert (Go := @good_other V throws pick dv hA csA (s2_a S2_) s a la _ (bget boxB d') (hB :: lb ++ nh) GA).
    refine (good_views throws pick csA (Go _ _ _)).
    - apply (i_mem (g_inv G')).
    - rewrite (g_mem G'). perm.
    - intros x _. now rewrite M', E. }
  unfold on_dst, lensM. cbn [fst snd]. destruct (run_index throws pick hB csB (length cs1, o) d) as [u d'|d'|] eqn:X; [| |exact W].
  - destruct W as (a' & l' & D & G'). destruct (K _ _ G' (ad_mem D)) as (K1 & K2 & K3). splits; auto.
    + refine (dst_ret (r := Nothing) (Index V (length cs1, o)) R Al2 _). unfold on_dst, lensM, exec_box. cbn [exec fst snd]. unfold bind. now rewrite X.
    + rewrite K3. assert (Q := ad_tk D). unfold Client.calls. cbn [fst snd]. rewrite E. exact Q.
    + exists l'. split.
      * assert (F := ad_eff D). unfold Client.value_of. cbn [fst]. rewrite E. exact F.
      * rewrite <- (ad_els D). apply (good_views throws pick csB G').
  - destruct W as (a' & l' & D & G'). destruct (K _ _ G' (ad_mem D)) as (K1 & K2 & K3). splits; auto.
    + refine (dst_exn (Index V (length cs1, o)) R Al2 _). unfold on_dst, lensM, exec_box. cbn [exec fst snd]. unfold bind. now rewrite X.
    + rewrite K3. assert (Q := ad_tk D). unfold Client.calls. cbn [fst snd]. rewrite E. exact Q.
    + exists l'. split; [exact (ad_eff D)|].
      rewrite <- (ad_els D). apply (good_views throws pick csB G').
Qed.

(** ** a range moved to an index which puts new elements at the back *)
Notation k := (length cs1).
Notation move_range := (@move_range V throws pick hA hB csA csB).
Notation dealt p := (merged (fun x y => conflict csB (value_of p x) (value_of p y)) (fun ls x => each (fun c => placed hB c (value_of p) None x) csB ls)
                       (each (fun c => untouched c (value_of p)) csB)).
Hypothesis back : forall v x l l', placed hB this v None x l l' -> l' = l ++ [x].
Hypothesis still : forall (v : node -> V) l l', untouched this v l l' -> l' = l.
Lemma dealt_nth v lb ls mid moved ls' : merged (fun x y => conflict csB (v x) (v y)) (fun ls x => each (fun c => placed hB c v None x) csB ls)
    (each (fun c => untouched c v) csB) lb ls mid moved ls' -> forall l, nth_error ls k = Some l -> nth_error ls' k = Some (l ++ moved).
Proof.
  induction 1 as [lb ls|lb ls x ls1 mid moved ls' NC Ea Mr IH|lb ls x y ls1 mid moved ls' Iy Cf Ea Mr IH]; intros l Nt.
  - now rewrite app_nil_r.
  - destruct (each_nth k Ea (this_at cs1 cs2 this) Nt) as (l' & Nt1 & Pl). apply back in Pl. subst l'. rewrite (IH _ Nt1). now rewrite <- app_assoc.
  - destruct (each_nth k Ea (this_at cs1 cs2 this) Nt) as (l' & Nt1 & Pl). apply still in Pl. subst l'. now apply IH.
Qed.
(** [mid] has been dealt with, [moved] are the elements which have moved; these are between [l1] and [l2] *)
Definition spliced p p' la lb nh lsA lsB (mid moved l1 l2 : list node) : Prop :=
  memory p' = memory p /\ incl moved mid /\
  (exists ls, dealt p lb lsB mid moved ls /\ seqB p' = Some (set_nth k (l1 ++ moved ++ l2) ls)) /\
  seqA p' = Some (map (without moved) lsA) /\
  exists la' lb', reach2 p' la' lb' nh /\ Permutation la' (without moved la) /\ Permutation lb' (moved ++ lb).
(** [spliced], then an operation has been undone *)
Definition spliced_undone p p' la lb nh lsA lsB (mid moved l1 l2 : list node) : Prop :=
  memory p' = memory p /\ incl moved mid /\
  (exists ls ls', dealt p lb lsB mid moved ls /\ each (fun c => untouched c (value_of p)) csB ls ls' /\ seqB p' = Some (set_nth k (l1 ++ moved ++ l2) ls')) /\
  seqA p' = Some (map (without moved) lsA) /\
  exists la' lb', reach2 p' la' lb' nh /\ Permutation la' (without moved la) /\ Permutation lb' (moved ++ lb).

Lemma range_moved p la lb nh lsA lsB i l1 mid l2 l : reach2 p la lb nh -> seqA p = Some lsA -> seqB p = Some lsB ->
  nth_error lsA i = Some (l1 ++ mid ++ l2) -> nth_error lsB k = Some l ->
  match move_range i (List.hd hA (mid ++ l2)) (List.hd hA l2) p with
  | Ret _ p' => quiet throws (calls p) (calls p') /\ exists moved, spliced p p' la lb nh lsA lsB mid moved l []
  | Exn p' => blown throws (calls p) (calls p') /\ exists mid1 x mid2 moved, mid = mid1 ++ x :: mid2 /\
  spliced_undone p p' la lb nh lsA lsB mid1 moved l []
  | UB => False
  end.
Proof.
  intros R QA QB Na Nb. assert (W := C49_range dv S2_ i l1 mid l2 R QA QB Na eq_refl eq_refl).
  assert (Q : match move_range i (List.hd hA (mid ++ l2)) (List.hd hA l2) p with Ret _ p' => quiet throws (calls p) (calls p') | _ => True end).
  { destruct (reach2_ok dv S2_ R) as ((a & b & T) & _). assert (Va := good_views throws pick csA (proj1 (proj2 T))). rewrite Va in QA. injection QA as <-.
    assert (X := @move_range_spec V throws pick dv hA hB csA csB (s2_a S2_) (s2_b S2_) p a b la lb nh i l1 mid l2 T Na). unfold wp in X.
    destruct (move_range i _ _ p); auto. apply X. }
  assert (Al : allowed2 p la lb nh (false, Range V i (List.hd hA (mid ++ l2)) (List.hd hA l2))).
  { cbn. exists lsA, l1, mid, l2. auto. }
  assert (K : forall p' la' lb' lsA' lsB', sane2 p' la' lb' nh lsA' lsB' -> Permutation (elems (seqA p')) la' /\ Permutation (elems (seqB p')) lb').
  { intros p' la' lb' lsA' lsB' Sn. rewrite (t_seqA Sn), (t_seqB Sn).
    assert (L1 := t_lenA Sn). assert (L2 := t_lenB Sn). assert (P1 := t_permA Sn). assert (P2 := t_permB Sn).
    assert (N1 := s_index (s2_a S2_)). assert (N2 := s_index (s2_b S2_)).
    destruct lsA' as [|a1 r1]; [now destruct csA|]. destruct lsB' as [|b1 r2]; [now destruct csB|]. cbn.
    inversion P1; inversion P2; subst. tauto. }
  destruct (move_range i (List.hd hA (mid ++ l2)) (List.hd hA l2) p) as [u p'|p'|] eqn:E; [| |exact W].
  - split; auto. destruct W as (M & moved & lsB' & Inc & D & QA' & QB' & Sn). exists moved. unfold spliced. rewrite app_nil_r. splits; auto.
    + exists lsB'. split; auto. rewrite QB'. f_equal. symmetry. apply set_nth_id. eapply dealt_nth; eauto.
    + destruct (K _ _ _ _ _ Sn) as (P1 & P2). exists (elems (seqA p')), (elems (seqB p')). splits; auto.
      refine (r2_ret _ (r := Nothing) R Al _ _); [|reflexivity].
      unfold run2, run1. cbn [fst snd]. unfold bind. now rewrite E.
  - destruct W as (M & B & mid1 & x & mid2 & moved & ls1 & lsB' & Em & Inc & D & Un & QA' & QB' & Sn). split; auto.
    exists mid1, x, mid2, moved. split; auto. unfold spliced_undone. rewrite app_nil_r. splits; auto.
    + exists ls1, lsB'. splits; auto. rewrite QB'. f_equal. symmetry. apply set_nth_id. assert (Nt1 := dealt_nth D Nb).
      destruct (each_nth k Un (this_at cs1 cs2 this) Nt1) as (l' & Nt2 & Pl). apply still in Pl. now subst l'.
    + destruct (K _ _ _ _ _ Sn) as (P1 & P2). exists (elems (seqA p')), (elems (seqB p')). splits; auto.
      refine (r2_exn _ R Al _ _); [|reflexivity].
      unfold run2, run1. cbn [fst snd]. unfold bind. now rewrite E.
Qed.

End Base.
