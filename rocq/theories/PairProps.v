(** C49: moving elements from one container to another; C03 for histories of two containers. *)
From Verif Require Import Prelude Layer LayerBase Stack View Container ContOk Iops History ContSpec Client Transfer Conv Pair.
From Verif Require ContEx.
Set Implicit Arguments.

Section Props.
Variable V : Type.
Variable throws : nat -> bool.
Variable pick : list node -> node.
Variable dv : V.
Variables (hA hB : node) (csA csB : list (code V)).
Notation boxA := (box throws pick hA csA).
Notation boxB := (box throws pick hB csB).
Notation state := (St boxA * St boxB)%type.
Notation seqA p := (@sequences V throws pick hA csA (fst p)).
Notation seqB p := (@sequences V throws pick hB csB (snd p)).
Notation countA p := (@count V throws pick hA csA (fst p)).
Notation countB p := (@count V throws pick hB csB (snd p)).
(** the values of all nodes, whichever container they are in *)
Notation value_of p := (@value_of V throws pick dv hA csA (fst p)).
Notation memory p := (@memory V throws pick hA csA (fst p)).
Notation calls p := (@calls V throws pick hA csA (fst p)).
Notation reach2 := (@reach2 V throws pick hA hB csA csB).
Notation run2 := (@run2 V throws pick hA hB csA csB).
Notation allowed2 := (@allowed2 V throws pick hA hB csA csB).
Notation setting2 := (setting2 pick hA hB csA csB).
Implicit Types (p : state) (la lb nh : list node).

(** everything is as it should be: [lsA], [lsB] are the sequences of the indices of the two containers; every node in
    the memory is a header, an element of one container, or owned by a node handle *)
Record sane2 p la lb nh (lsA lsB : list (list node)) : Prop := mkSane2 {
  t_seqA : seqA p = Some lsA;
  t_seqB : seqB p = Some lsB;
  t_lenA : length lsA = length csA;
  t_lenB : length lsB = length csB;
  t_permA : Forall (fun l => NoDup l /\ Permutation l la) lsA;
  t_permB : Forall (fun l => NoDup l /\ Permutation l lb) lsB;
  t_legalA : Forall2 (fun c l => legal c (value_of p) l) csA lsA;
  t_legalB : Forall2 (fun c l => legal c (value_of p) l) csB lsB;
  t_countA : countA p = length la;
  t_countB : countB p = length lb;
  t_one : bget boxA (fst p) = bget boxB (snd p);
  t_dist : NoDup (null :: hA :: hB :: la ++ lb ++ nh);
  t_mem : Permutation (map fst (memory p)) (hA :: hB :: la ++ lb ++ nh);
  t_live : forall x, In x (la ++ lb ++ nh) -> live (bget boxA (fst p)) x }.

Hypothesis S2 : setting2.
Notation two := (@two V throws pick dv hA hB csA csB).
Notation S0 h cs := (spec h (fun _ (_ : unit) => False) (fun _ a => a) cs).

Lemma two_sane p a b la lb nh : two p a b la lb nh -> (forall x, In x nh -> live (bget boxA (fst p)) x) ->
  sane2 p la lb nh (els (S0 hA csA) a) (els (S0 hB csB) b).
Proof.
  intros (E & Ga & Gb) Lv. destruct p as (s, d). cbn [fst snd] in *.
  assert (P : Permutation (hA :: la ++ hB :: lb ++ nh) (hA :: hB :: la ++ lb ++ nh)) by perm.
  split; cbn [fst snd].
  - apply (good_views throws pick csA Ga).
  - apply (good_views throws pick csB Gb).
  - apply spec_len.
  - apply spec_len.
  - eapply Forall_impl; [|apply (i_perm (g_inv Ga))]. intros l Pl. split; auto. eapply NoDup_perm; [symmetry; exact Pl|apply (Layer.i_nd (g_inv Ga))].
  - eapply Forall_impl; [|apply (i_perm (g_inv Gb))]. intros l Pl. split; auto. eapply NoDup_perm; [symmetry; exact Pl|apply (Layer.i_nd (g_inv Gb))].
  - assert (A := g_ok Ga). apply to_legal in A; [exact A|apply (s2_a S2)].
  - assert (A := g_ok Gb). apply to_legal in A; [|apply (s2_b S2)]. unfold Client.value_of. rewrite E. exact A.
  - apply (g_cnt Ga).
  - apply (g_cnt Gb).
  - exact E.
  - eapply NoDup_perm; [constructor; exact P|apply (good_nodup Ga)].
  - rewrite <- P. apply (g_mem Ga).
  - intros x. rewrite !in_app_iff. intros [I|[I|I]]; auto; [now apply (i_live (g_inv Ga))|].
    rewrite E. now apply (i_live (g_inv Gb)).
Qed.

(** C03, for two containers between which elements are moved *)
Theorem C03_two_consistent p la lb nh : reach2 p la lb nh -> exists lsA lsB, sane2 p la lb nh lsA lsB.
Proof. intros R. destruct (@reach2_ok V throws pick dv hA hB csA csB S2 p la lb nh R) as ((a & b & T) & Lv). eauto using two_sane. Qed.
Theorem C03_two_defined p la lb nh o : reach2 p la lb nh -> allowed2 p la lb nh o -> run2 o p <> UB.
Proof.
  intros R A X. assert (Y := @run2_ok V throws pick dv hA hB csA csB S2 p la lb nh o (@reach2_ok V throws pick dv hA hB csA csB S2 p la lb nh R) A).
  unfold wp in Y. now rewrite X in Y.
Qed.

Lemma open2 p la lb nh lsA lsB : reach2 p la lb nh -> seqA p = Some lsA -> seqB p = Some lsB ->
  exists a b, two p a b la lb nh /\ lsA = els (S0 hA csA) a /\ lsB = els (S0 hB csB) b.
Proof.
  intros R QA QB. destruct (@reach2_ok V throws pick dv hA hB csA csB S2 p la lb nh R) as ((a & b & T) & Lv).
  assert (Sn := two_sane T Lv). exists a, b. splits; auto.
  - assert (X := t_seqA Sn). congruence.
  - assert (X := t_seqB Sn). congruence.
Qed.
Lemma counts p a b la lb nh : two p a b la lb nh -> countA p = length la /\ countB p = length lb.
Proof. intros (_ & Ga & Gb). split; [apply (g_cnt Ga)|apply (g_cnt Gb)]. Qed.

(** ** C49: one element of the first container is moved to the second *)
Theorem C49_transfer p la lb nh lsA lsB x : reach2 p la lb nh -> seqA p = Some lsA -> seqB p = Some lsB -> In x la ->
  match @move_one V throws pick hA hB csA csB x p with
  | Ret (y, true) p' => y = x /\ (forall z, In z lb -> ~ conflict csB (value_of p x) (value_of p z)) /\
      memory p' = memory p /\ S (countA p') = countA p /\ countB p' = S (countB p) /\
      seqA p' = Some (map (remove Nat.eq_dec x) lsA) /\
      exists lsB', seqB p' = Some lsB' /\ each (fun c => placed hB c (value_of p) None x) csB lsB lsB'
  | Ret (y, false) p' => In y lb /\ conflict csB (value_of p x) (value_of p y) /\
      memory p' = memory p /\ countA p' = countA p /\ countB p' = countB p /\ seqA p' = Some lsA /\
      exists lsB', seqB p' = Some lsB' /\ each (fun c => untouched c (value_of p)) csB lsB lsB'
  | Exn p' => blown throws (calls p) (calls p') /\
      memory p' = memory p /\ countA p' = countA p /\ countB p' = countB p /\ seqA p' = Some lsA /\
      exists lsB', seqB p' = Some lsB' /\ each (fun c => untouched c (value_of p)) csB lsB lsB'
  | UB => False
  end.
Proof.
  intros R QA QB I. destruct (open2 R QA QB) as (a & b & T & -> & ->).
  assert (W := @move_one_spec V throws pick dv hA hB csA csB (s2_a S2) (s2_b S2) p a b la lb nh x T I).
  destruct (counts T) as (C1 & C2). unfold wp in W.
  destruct (@move_one V throws pick hA hB csA csB x p) as [(y, [|]) p'|p'|]; cbn [fst snd] in W; auto.
  - destruct W as (M & _ & -> & NC & a' & b' & T' & Ea & Eb). destruct (counts T') as (C1' & C2'). splits; auto.
    + rewrite C1, C1'. destruct T as (_ & Ga & _). assert (L := length_remove x (Layer.i_nd (g_inv Ga)) I). unfold node in *. lia.
    + rewrite C2, C2'. reflexivity.
    + rewrite <- Ea. apply (good_views throws pick csA (proj1 (proj2 T'))).
    + exists (els (S0 hB csB) b'). split; auto. apply (good_views throws pick csB (proj2 (proj2 T'))).
  - destruct W as (M & _ & Iy & C & a' & b' & T' & Ea & Eb). destruct (counts T') as (C1' & C2'). splits; auto; try congruence.
    + rewrite <- Ea. apply (good_views throws pick csA (proj1 (proj2 T'))).
    + exists (els (S0 hB csB) b'). split; auto. apply (good_views throws pick csB (proj2 (proj2 T'))).
  - destruct W as (M & B & a' & b' & T' & Ea & Eb). destruct (counts T') as (C1' & C2'). splits; auto; try congruence.
    + rewrite <- Ea. apply (good_views throws pick csA (proj1 (proj2 T'))).
    + exists (els (S0 hB csB) b'). split; auto. apply (good_views throws pick csB (proj2 (proj2 T'))).
Qed.

(** ** C49: a range *)
(** [l] without the elements of [moved] *)
Definition without (moved l : list node) : list node := filter (fun x => negb (existsb (Nat.eqb x) moved)) l.
Lemma drop_without moved : forall l, drop moved l = without moved l.
Proof.
  unfold without. induction moved as [|x m IH]; intros l; cbn [drop fold_left existsb].
  - induction l as [|y l IH]; [reflexivity|]. cbn in *. now rewrite <- IH.
  - unfold drop in IH. rewrite IH. induction l as [|y l IHl]; cbn; auto.
    destruct (Nat.eq_dec x y) as [->|Ne].
    + rewrite Nat.eqb_refl. cbn. exact IHl.
    + rewrite (proj2 (Nat.eqb_neq y x)) by congruence. cbn. destruct (existsb (Nat.eqb y) m); cbn; congruence.
Qed.

(** what has become of the second container after the elements [mid] have been dealt with, in this order: an element
    moves if and only if it is in conflict with none of those which are there at that time *)
Notation dealt p := (merged (fun x y => conflict csB (value_of p x) (value_of p y)) (fun ls x => each (fun c => placed hB c (value_of p) None x) csB ls)
                       (each (fun c => untouched c (value_of p)) csB)).
(** merge of the range [mid] of the sequence of index number [i] of the first container, [first] and [last] being its
    ends: all values remain where they are, no node is allocated or freed *)
Theorem C49_range p la lb nh lsA lsB i l1 mid l2 first last :
  reach2 p la lb nh -> seqA p = Some lsA -> seqB p = Some lsB -> nth_error lsA i = Some (l1 ++ mid ++ l2) ->
  first = hd hA (mid ++ l2) -> last = hd hA l2 ->
  match @move_range V throws pick hA hB csA csB i first last p with
  | Ret _ p' => memory p' = memory p /\
      exists moved lsB', incl moved mid /\ dealt p lb lsB mid moved lsB' /\
        seqA p' = Some (map (without moved) lsA) /\ seqB p' = Some lsB' /\
        sane2 p' (without moved la) (moved ++ lb) nh (map (without moved) lsA) lsB'
  | Exn p' => memory p' = memory p /\ blown throws (calls p) (calls p') /\
      exists mid1 x mid2 moved lsB1 lsB', mid = mid1 ++ x :: mid2 /\ incl moved mid1 /\ dealt p lb lsB mid1 moved lsB1 /\
        each (fun c => untouched c (value_of p)) csB lsB1 lsB' /\
        seqA p' = Some (map (without moved) lsA) /\ seqB p' = Some lsB' /\
        sane2 p' (without moved la) (moved ++ lb) nh (map (without moved) lsA) lsB'
  | UB => False
  end.
Proof.
  intros R QA QB Nt -> ->. destruct (open2 R QA QB) as (a & b & T & -> & ->).
  assert (Lv : forall x, In x nh -> live (bget boxA (fst p)) x) by (apply (@reach2_ok V throws pick dv hA hB csA csB S2 p la lb nh R)).
  assert (W := @move_range_spec V throws pick dv hA hB csA csB (s2_a S2) (s2_b S2) p a b la lb nh i l1 mid l2 T Nt).
  assert (F : forall p' a' b' mv, memory p' = memory p -> two p' a' b' (drop mv la) (rev mv ++ lb) nh -> els (S0 hA csA) a' = map (drop mv) (els (S0 hA csA) a) ->
    seqA p' = Some (map (without mv) (els (S0 hA csA) a)) /\ seqB p' = Some (els (S0 hB csB) b') /\
    sane2 p' (without mv la) (mv ++ lb) nh (map (without mv) (els (S0 hA csA) a)) (els (S0 hB csB) b')).
  { intros p' a' b' mv M T' Ea.
    assert (T2 : two p' a' b' (without mv la) (mv ++ lb) nh).
    { rewrite <- drop_without. destruct T' as (E & Ga & Gb). assert (P : Permutation (rev mv ++ lb) (mv ++ lb)) by now rewrite <- (Permutation_rev mv).
      split; auto. split.
      - eapply good_lk; [reflexivity| |exact Ga]. now rewrite P.
      - eapply good_lk; [exact P|reflexivity|exact Gb]. }
    assert (Lv' : forall x, In x nh -> live (bget boxA (fst p')) x) by (intros x I; eapply live_mem; [symmetry; exact M|auto]).
    assert (Sn := two_sane T2 Lv').
    assert (Ea' : els (S0 hA csA) a' = map (without mv) (els (S0 hA csA) a)) by (rewrite Ea; apply map_ext; intros l; apply drop_without).
    rewrite Ea' in Sn. splits; auto; [apply (t_seqA Sn)|apply (t_seqB Sn)]. }
  unfold wp in W. destruct (@move_range V throws pick hA hB csA csB i (hd hA (mid ++ l2)) (hd hA l2) p) as [u p'|p'|]; auto.
  - destruct W as (M & _ & a' & b' & mv & T' & Ea & Mr). split; auto. destruct (F p' a' b' mv M T' Ea) as (F1 & F2 & F3).
    exists mv, (els (S0 hB csB) b'). splits; auto. eapply merged_incl; eauto.
  - destruct W as (M & B & a' & b' & mid1 & x & mid2 & mv & ls1 & Em & T' & Ea & Mr & Un). splits; auto. destruct (F p' a' b' mv M T' Ea) as (F1 & F2 & F3).
    exists mid1, x, mid2, mv, ls1, (els (S0 hB csB) b'). splits; auto. eapply merged_incl; eauto.
Qed.
End Props.

(** ** concrete cases *)
Section Play.
Variable V : Type.
Variable throws : nat -> bool.
Variable pick : list node -> node.
Variables (hA hB : node) (csA csB : list (code V)).
Notation state := (St (box throws pick hA csA) * St (box throws pick hB csB))%type.
Definition ledger_of (o : bool * op1 V) (r : option res) (p' : state) (l : list node * list node * list node) :=
  @ledger2 V throws pick hA hB csA csB o r p' (fst (fst l)) (snd (fst l)) (snd l).
(** the state and the ledger after the operations, if they are allowed *)
Fixpoint play2 (os : list (bool * op1 V)) (p : state) (l : list node * list node * list node) : state * (list node * list node * list node) :=
  match os with
  | [] => (p, l)
  | o :: os => match @run2 V throws pick hA hB csA csB o p with
               | Ret r p' => play2 os p' (ledger_of o (Some r) p' l)
               | Exn p' => play2 os p' (ledger_of o None p' l)
               | UB => (p, l)
               end
  end.
Fixpoint playable2 (os : list (bool * op1 V)) (p : state) (l : list node * list node * list node) : Prop :=
  match os with
  | [] => True
  | o :: os => @allowed2 V throws pick hA hB csA csB p (fst (fst l)) (snd (fst l)) (snd l) o /\
               match @run2 V throws pick hA hB csA csB o p with
               | Ret r p' => playable2 os p' (ledger_of o (Some r) p' l)
               | Exn p' => playable2 os p' (ledger_of o None p' l)
               | UB => False
               end
  end.
Lemma play2_reach os : forall p l, @reach2 V throws pick hA hB csA csB p (fst (fst l)) (snd (fst l)) (snd l) -> playable2 os p l ->
  let q := play2 os p l in @reach2 V throws pick hA hB csA csB (fst q) (fst (fst (snd q))) (snd (fst (snd q))) (snd (snd q)).
Proof.
  induction os as [|o os IH]; intros p l R P; cbn; auto. destruct P as (A & P).
  destruct (@run2 V throws pick hA hB csA csB o p) as [r p'|p'|] eqn:E; [| |easy].
  - apply IH; auto. unfold ledger_of. eapply (@r2_ret V throws pick hA hB csA csB); [exact R|exact A|exact E|]. now destruct (ledger2 throws pick hA hB csA csB _ _ _ _ _ _) as ((?, ?), ?).
  - apply IH; auto. unfold ledger_of. eapply (@r2_exn V throws pick hA hB csA csB); [exact R|exact A|exact E|]. now destruct (ledger2 throws pick hA hB csA csB _ _ _ _ _ _) as ((?, ?), ?).
Qed.
End Play.

(** The first container has the four indices of ContEx, the elements are 6 8 5 7; the second has a hashed index and
    an ordered one, both unique, the elements are 8 and 20.  Call number 34 throws. *)
Definition at34 (n : nat) : bool := n =? 34.
Definition pair_ops : list (bool * op1 nat) :=
  [(false, On (Insert _ 6 None)); (false, On (Insert _ 8 None)); (false, On (Insert _ 5 None)); (false, On (Insert _ 7 None));
   (true, On (Insert _ 8 None)); (true, On (Insert _ 20 None))].
Definition csB0 : list (code nat) := [ContEx.hash_id true; ContEx.by_id true].
Notation pick0 := ContEx.next_node.
Notation csA0 := ContEx.four.
Notation run_pair o := (run2 at34 pick0 1 2 csA0 csB0 o).
Definition pair_play := play2 at34 pick0 1 2 csA0 csB0 pair_ops (start2 at34 pick0 1 2 csA0 csB0 0) ([], [], []).
Definition pair_state := fst pair_play.
Definition pair_seqs p := (sequences at34 pick0 1 csA0 (fst p), sequences at34 pick0 2 csB0 (snd p)).
Definition pair_seen {A} (o : out (St (box at34 pick0 1 csA0) * St (box at34 pick0 2 csB0)) A) :=
  match o with Ret _ p => (0, pair_seqs p) | Exn p => (1, pair_seqs p) | UB => (2, (None, None)) end.
Lemma pair_setting : setting2 pick0 1 2 csA0 csB0.
Proof.
  split; [exact ContEx.four_ok| |discriminate]. split; [exact ContEx.next_node_ok| |easy|easy].
  repeat (constructor; [first [exact ContEx.nat_swo|apply ContEx.nat_heq|exact I]|]). constructor.
Qed.
Lemma pair_reach : reach2 at34 pick0 1 2 csA0 csB0 pair_state [6; 5; 4; 3] [8; 7] [].
Proof.
  assert (P : playable2 at34 pick0 1 2 csA0 csB0 pair_ops (start2 at34 pick0 1 2 csA0 csB0 0) ([], [], [])).
  { vm_compute. repeat split; auto. }
  apply play2_reach in P; [|apply r2_start]. vm_compute in P |- *. exact P.
Qed.
(** the hypotheses of the theorems are met, ... *)
Example pair_hyp : setting2 pick0 1 2 csA0 csB0 /\ reach2 at34 pick0 1 2 csA0 csB0 pair_state [6; 5; 4; 3] [8; 7] [] /\
  pair_seqs pair_state = (Some [[5; 3; 6; 4]; [3; 4; 5; 6]; [5; 3; 6; 4]; [3; 4; 5; 6]], Some [[7; 8]; [7; 8]]) /\
  allowed2 at34 pick0 1 2 csA0 csB0 pair_state [6; 5; 4; 3] [8; 7] [] (false, Range _ 1 4 6).
Proof.
  splits; [exact pair_setting|exact pair_reach|vm_compute; reflexivity|].
  exists [[5; 3; 6; 4]; [3; 4; 5; 6]; [5; 3; 6; 4]; [3; 4; 5; 6]], [3], [4; 5], [6]. vm_compute. auto.
Qed.
(** ... and what happens: of 8 5 (the second and third element of the second index), 5 is moved; of 5 6 7 8 (all of the first
    index), 5 and 6 are moved before the exception; 8 is not moved; 20 is moved the other way *)
Example pair_moves :
  pair_seen (run_pair (false, Range _ 1 4 6) pair_state) =
    (0, (Some [[3; 6; 4]; [3; 4; 6]; [3; 6; 4]; [3; 4; 6]], Some [[7; 8; 5]; [5; 7; 8]])) /\
  pair_seen (run_pair (false, Range _ 0 5 1) pair_state) =
    (1, (Some [[6; 4]; [4; 6]; [6; 4]; [4; 6]], Some [[7; 8; 5; 3]; [5; 3; 7; 8]])) /\
  pair_seen (run_pair (false, One _ 4) pair_state) = (0, pair_seqs pair_state) /\
  pair_seen (run_pair (true, One _ 8) pair_state) =
    (0, (Some [[5; 3; 6; 4; 8]; [3; 4; 5; 6; 8]; [5; 3; 6; 4; 8]; [3; 4; 5; 6; 8]], Some [[7]; [7]])).
Proof. splits; vm_compute; reflexivity. Qed.

Print Assumptions C03_two_consistent.
Print Assumptions C03_two_defined.
Print Assumptions C49_transfer.
Print Assumptions C49_range.
