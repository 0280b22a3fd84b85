(** Moving elements from one container to another (merge, splice). *)
From Verif Require Import Prelude Layer LayerBase Container ContOk Stack.
Set Implicit Arguments.

(** [moved]: those of the elements [mid], taken in order, which are not in conflict with the elements [lk] of the
    destination nor with those moved before; [add] and [same] describe what becomes of the destination when an
    element is moved and when it is not *)
Inductive merged {X} (conf : node -> node -> Prop) (add : X -> node -> X -> Prop) (same : X -> X -> Prop) :
  list node -> X -> list node -> list node -> X -> Prop :=
| m_nil lk a : merged conf add same lk a [] [] a
| m_move lk a x a1 mid moved a' : (forall y, In y lk -> ~ conf x y) -> add a x a1 ->
    merged conf add same (x :: lk) a1 mid moved a' -> merged conf add same lk a (x :: mid) (x :: moved) a'
| m_stay lk a x y a1 mid moved a' : In y lk -> conf x y -> same a a1 ->
    merged conf add same lk a1 mid moved a' -> merged conf add same lk a (x :: mid) moved a'.
Section Merged.
Variables X Y : Type.
Variables (conf conf' : node -> node -> Prop) (add : X -> node -> X -> Prop) (same : X -> X -> Prop)
  (add' : Y -> node -> Y -> Prop) (same' : Y -> Y -> Prop) (f : X -> Y) (P : X -> Prop).
Lemma merged_incl lk a mid moved a' : merged conf add same lk a mid moved a' -> incl moved mid.
Proof. induction 1; intros z Z; auto; [destruct Z as [<-|Z]; [now left|right; auto]|right; auto]. Qed.
Lemma merged_nodup lk a mid moved a' : NoDup mid -> merged conf add same lk a mid moved a' -> NoDup moved.
Proof.
  intros N M. induction M as [| |]; auto; apply NoDup_cons_iff in N as (N1 & N2); auto. constructor; auto. intros J. apply N1. eapply merged_incl; eauto.
Qed.
(** the same seen otherwise *)
Lemma merged_map lk a mid moved a' : (forall x y, conf x y <-> conf' x y) ->
  (forall a x a', P a -> add a x a' -> add' (f a) x (f a') /\ P a') -> (forall a a', P a -> same a a' -> same' (f a) (f a') /\ P a') ->
  P a -> merged conf add same lk a mid moved a' -> merged conf' add' same' lk (f a) mid moved (f a') /\ P a'.
Proof.
  intros E A B Pa M. revert Pa. induction M as [|lk a x a1 mid moved a' N1 N2 M IH|lk a x y a1 mid moved a' N1 N2 N3 M IH]; intros Pa.
  - split; auto. constructor.
  - destruct (A _ _ _ Pa N2) as (A1 & A2). destruct (IH A2) as (I1 & I2). split; auto. econstructor; eauto.
    intros y Y_ C. apply (N1 y Y_). now apply E.
  - destruct (B _ _ Pa N3) as (A1 & A2). destruct (IH A2) as (I1 & I2). split; auto. eapply m_stay; eauto. now apply E.
Qed.
End Merged.

Section T.
Variable V : Type.
Variable throws : nat -> bool.
Variable pick : list node -> node.
Variable dv : V.
Hypothesis pick_ok : forall l, ~ In (pick l) (null :: l).
(** the source container *)
Variable hs : node.
Variable Ls : Layer V.
Variable Ss : Spec V.
Variable reps : St Ls -> AV Ss -> Prop.
Variable shells : St Ls -> Prop.
Hypothesis Os : OK throws pick dv hs Ls Ss reps shells.
(** the destination, with the indices [cs] *)
Variable hd : node.
Variable cs : list (code V).
Hypothesis cs_ok : Forall (@code_ok V) cs.

Notation W := (container_world Ls).
Notation wrep := (fun s (a : AV Ss * nat) => reps s (fst a) /\ cget Ls s = snd a).
Notation wready := (fun x (a : AV Ss * nat) =>
  Forall (fun l => NoDup l /\ In x l /\ length l <= Datatypes.S (snd a - 1)) (els Ss (fst a))).
Notation wrem := (fun x (a : AV Ss * nat) => (arem Ss x (fst a), snd a - 1)).
Notation L := (stack throws pick hd W cs).
Notation S := (spec hd wready wrem cs).
Notation rep := (srep throws pick hd W wrep wready wrem cs).
Notation source s := (swld throws pick hd W cs s).
Notation src_arr a := (fst (sworld hd wready wrem cs a)).
Notation good := (@ContOk.good V dv hd L S rep).
Notation goods := (@ContOk.good V dv hs Ls Ss reps).
Notation mm s := (mem (bget L s)).
Notation vv s := (val dv (bget L s)).
Notation tt_ s := (tk (bget L s)).

Lemma L_ok : OK throws pick dv hd L S rep (@sshell V throws pick hd W (AV Ss * nat)%type wrep cs).
Proof. apply stack_ok; auto. eapply container_world_ok; eauto. Qed.

(** both containers are in order, [lk] being the elements of the destination, [ls] those of the
    source; [a] describes both *)
Definition both (s : St L) (a : AV S) (lk ls out : list node) : Prop :=
  good s a lk (hs :: ls ++ out) /\ goods (source s) (src_arr a) ls (hd :: lk ++ out) /\
  snd (sworld hd wready wrem cs a) = length ls.

Lemma source_mem s : bget Ls (source s) = bget L s.
Proof. symmetry. exact (wld_get throws pick hd W cs s). Qed.

Lemma both_same s s' a a' lk ls out : both s a lk ls out -> good s' a' lk (hs :: ls ++ out) ->
  asame S (vv s) a a' -> mm s' = mm s -> both s' a' lk ls out.
Proof.
  intros (G & Gs & N) G' A M. assert (E := wld_same hd wready wrem cs _ a a' A). split; auto. rewrite E. split; auto.
  destruct (wld_rep throws pick hd W wrep wready wrem cs _ _ (g_rep G')) as (R' & C'). rewrite E in R', C'.
  eapply good_adv; [exact Os|exact Gs|auto|..].
  - rewrite C', N. symmetry. apply (g_cnt Gs).
  - now rewrite !source_mem.
Qed.

(** transfer of one element *)
Theorem transfer_spec s a lk ls out n :
  both s a lk ls out -> In n ls ->
  wp (c_transfer L n)
     (fun r s' => mm s' = mm s /\ quiet throws (tt_ s) (tt_ s') /\
        if snd r then
          fst r = n /\ (forall y, In y lk -> ~ aconf S (vv s n) (vv s y)) /\
          exists a', both s' a' (n :: lk) (remove Nat.eq_dec n ls) out /\
            ains S Transfer (vv s') None a n a' /\ src_arr a' = arem Ss n (src_arr a)
        else
          In (fst r) lk /\ aconf S (vv s n) (vv s (fst r)) /\
          exists a', both s' a' lk ls out /\ asame S (vv s) a a')
     (fun s' => mm s' = mm s /\ blown throws (tt_ s) (tt_ s') /\ exists a', both s' a' lk ls out /\ asame S (vv s) a a') s.
Proof.
  intros (G & Gs & N) I. assert (O := L_ok).
  assert (Gp := i_perm (g_inv Gs)). assert (Gn := i_nd (g_inv Gs)).
  assert (Lv := i_live (g_inv Gs) n I). rewrite source_mem in Lv. apply live_val with (dv := dv) in Lv.
  assert (NL : ~ In n lk). { apply (good_out n G). right. rewrite in_app_iff. auto. }
  unfold c_transfer. apply wp_bind. eapply wp_value; [exact O|exact Lv|]. apply wp_bind.
  assert (WR : wready n (sworld hd wready wrem cs a)).
  { cbn. rewrite Forall_forall in *. intros l Il. apply Gp in Il. splits.
    - eapply NoDup_perm; [symmetry; exact Il|auto].
    - eapply Permutation_in; [symmetry; exact Il|auto].
    - rewrite N, (Permutation_length Il). lia. }
  assert (Rd : ready S (bget L s) Transfer n (vv s n) a lk).
  { cbn. splits; auto. now apply wld_ready. }
  eapply wp_conseq; [eapply (o_insert O) with (a := a) (lk := lk) (x := n) (var := Transfer); eauto; try apply G; exact Logic.I| |].
  - intros (res, x) s' (a' & R & C & Q & [(E & In_ & NC & A & Ok)|(E & X & Ir & Cf & Sm & M)]); cbn [fst snd] in *.
    + subst res. unfold conclude. rewrite Nat.eqb_refl. assert (In' := In_). destruct In_ as (-> & M).
      apply wp_bind, wp_inc, wp_ret. cbn [fst snd]. rewrite (o_bc O). splits; auto.
      exists a'. rewrite (vals_mem dv _ _ M) in A. rewrite (vals_mem dv _ _ M).
      assert (Pn : Permutation ls (n :: remove Nat.eq_dec n ls)).
      { assert (J := I). apply in_split in J as (l1 & l2 & ->). rewrite remove_mid by auto. symmetry. apply Permutation_middle. }
      assert (G' : good (cset L (Datatypes.S (cget L s')) s') a' (n :: lk) (hs :: remove Nat.eq_dec n ls ++ out)).
      { eapply good_ins' with (2 := O) (var := Transfer) (x := n) (v := vv s n) (s := s) (hint := None); eauto.
        - rewrite (vals_mem dv _ _ M). exact A.
        - rewrite Pn at 1. perm. }
      assert (E := wld_ins hd wready wrem cs _ _ _ _ _ _ A). cbv beta iota in E.
      split; [|split; auto].
      * split; [exact G'|].
        destruct (wld_rep throws pick hd W wrep wready wrem cs _ _ (g_rep G')) as (R' & C').
        rewrite E in *. cbn [fst snd] in *. split.
        -- eapply good_perm; [|eapply good_rem; [exact Os|exact Gs|auto|exact R'|..]].
           ++ perm.
           ++ rewrite C', N. f_equal. symmetry. apply (g_cnt Gs).
           ++ rewrite !source_mem. rewrite (o_bc O). exact M.
        -- rewrite N. assert (Ln := length_remove n Gn I). unfold node in *. lia.
      * now rewrite E.
    + unfold conclude. rewrite (proj2 (Nat.eqb_neq res x) E). apply wp_ret. cbn [fst snd]. splits; auto.
      exists a'. split; auto. eapply both_same; eauto; [split; auto|]. eapply good_same; eauto.
  - intros s' (a' & R & C & Sm & M & B). splits; auto. exists a'. split; auto.
    eapply both_same; eauto; [split; auto|]. eapply good_same; eauto.
Qed.

(** ** transfer of a range of index number [i] of the source *)
Variable i : nat.
Variable next : node -> M (St L) node.
Notation seq a := (nth i (els Ss (src_arr a)) []).
(** [next] is ++ on iterators of that index *)
Hypothesis next_ok : forall s a lk ls out l1 x l2, both s a lk ls out -> seq a = l1 ++ x :: l2 ->
  next x s = Ret (List.hd hs l2) s.
Hypothesis i_ok : forall a : AV Ss, i < length (els Ss a).

Definition drop (l ls : list node) : list node := fold_left (fun l x => remove Nat.eq_dec x l) l ls.

Lemma seq_perm s a lk ls out : both s a lk ls out -> Permutation (seq a) ls.
Proof.
  intros (_ & Gs & _). assert (F := i_perm (g_inv Gs)). rewrite Forall_forall in F. apply F, nth_In, i_ok.
Qed.
Lemma seq_nodup s a lk ls out : both s a lk ls out -> NoDup (hs :: seq a).
Proof.
  intros B. assert (P := seq_perm B). destruct B as (_ & Gs & _). assert (N := good_nodup Gs).
  apply NoDup_cons_iff in N as (_ & N). rewrite app_comm_cons in N. apply NoDup_app_iff in N as (N & _).
  eapply NoDup_perm; [|exact N]. constructor. now symmetry.
Qed.
Lemma seq_rem s a lk ls out x l1 l2 : both s a lk ls out -> seq a = l1 ++ x :: l2 ->
  nth i (els Ss (arem Ss x (src_arr a))) [] = l1 ++ l2.
Proof.
  intros B E. assert (N := seq_nodup B). destruct B as (_ & Gs & _). rewrite (o_elrem Os _ _ x (g_rep Gs)).
  transitivity (remove Nat.eq_dec x (seq a)); [exact (map_nth (remove Nat.eq_dec x) _ [] i)|rewrite E]. apply remove_mid. rewrite <- E. now inversion N.
Qed.

Notation mrg s := (merged (fun n y => aconf S (vv s n) (vv s y)) (fun a n a' => ains S Transfer (vv s) None a n a' /\ aok S (vv s) a') (asame S (vv s))).
Theorem transfer_range_spec : forall mid s a lk ls out l1 l2 fuel,
  both s a lk ls out -> seq a = l1 ++ mid ++ l2 -> length mid < fuel ->
  wp (c_transfer_range L next fuel (List.hd hs (mid ++ l2)) (List.hd hs l2))
     (fun _ s' => mm s' = mm s /\ quiet throws (tt_ s) (tt_ s') /\
        exists a' moved, mrg s lk a mid moved a' /\
          both s' a' (rev moved ++ lk) (drop moved ls) out /\
          els Ss (src_arr a') = map (drop moved) (els Ss (src_arr a)))
     (fun s' => mm s' = mm s /\ blown throws (tt_ s) (tt_ s') /\
        exists a1 a' mid1 x mid2 moved, mid = mid1 ++ x :: mid2 /\ mrg s lk a mid1 moved a1 /\ asame S (vv s) a1 a' /\
          both s' a' (rev moved ++ lk) (drop moved ls) out /\
          els Ss (src_arr a') = map (drop moved) (els Ss (src_arr a))) s.
Proof.
  induction mid as [|x mid IH]; intros s a lk ls out l1 l2 fuel B Sq Fu; (destruct fuel as [|fuel]; [cbn in Fu; lia|]);
    cbn [c_transfer_range app List.hd].
  - rewrite Nat.eqb_refl. apply wp_ret. splits; auto; [apply quiet_refl|]. exists a, []. splits; auto; [constructor|].
    now rewrite map_id.
  - assert (N := seq_nodup B). rewrite Sq in N. assert (NX : x <> List.hd hs l2).
    { destruct l2 as [|z l2]; cbn; intros <-; apply NoDup_cons_iff in N as (N & N').
      - apply N. rewrite !in_app_iff. cbn. auto.
      - apply NoDup_remove_2 in N'. apply N'. rewrite !in_app_iff. cbn. auto. }
    rewrite (proj2 (Nat.eqb_neq _ _) NX). apply wp_bind. unfold wp at 1.
    rewrite (next_ok _ _ _ B Sq : next x s = _). apply wp_bind.
    assert (Ix : In x ls). { eapply Permutation_in; [apply (seq_perm B)|]. rewrite Sq, in_app_iff. cbn. auto. }
    eapply wp_conseq; [eapply transfer_spec; [exact B|exact Ix]| |].
    + intros (r, b) s1 (M1 & Q1 & R). cbn [fst snd] in *. assert (VE := vals_mem dv _ _ M1). destruct b.
      * destruct R as (-> & NC & a1 & B1 & A1 & E1).
        assert (EL : els Ss (arem Ss x (src_arr a)) = map (remove Nat.eq_dec x) (els Ss (src_arr a))) by (destruct B as (_ & Gs & _); apply (o_elrem Os _ _ x (g_rep Gs))).
        assert (K1 := g_ok (proj1 B1)).
        assert (Sq1 : seq a1 = l1 ++ mid ++ l2) by (rewrite E1; eapply seq_rem; eauto).
        eapply wp_conseq; [apply (IH s1 a1 (x :: lk) (remove Nat.eq_dec x ls) out l1 l2 fuel B1 Sq1)| |]; [cbn in Fu; lia|..].
        -- intros _ s2 (M2 & Q2 & a2 & mv & C2 & B2 & E2). splits; [congruence|eapply quiet_trans; eauto|].
           exists a2, (x :: mv). rewrite VE in *. splits.
           ++ econstructor; eauto.
           ++ cbn [rev drop fold_left]. rewrite <- app_assoc. exact B2.
           ++ rewrite E2, E1, EL, map_map. reflexivity.
        -- intros s2 (M2 & Q2 & a2 & a3 & mid1 & z & mid2 & mv & Em & C2 & D2 & B2 & E2). splits; [congruence|eapply blown_trans; eauto|].
           exists a2, a3, (x :: mid1), z, mid2, (x :: mv). rewrite VE in *. splits; auto.
           ++ now rewrite Em.
           ++ econstructor; eauto.
           ++ cbn [rev drop fold_left]. rewrite <- app_assoc. exact B2.
           ++ rewrite E2, E1, EL, map_map. reflexivity.
      * destruct R as (Ir & Cf & a1 & B1 & Sm). assert (E1 := wld_same hd wready wrem cs _ a a1 Sm).
        assert (Sq1 : seq a1 = (l1 ++ [x]) ++ mid ++ l2) by (rewrite E1, Sq, <- app_assoc; reflexivity).
        eapply wp_conseq; [apply (IH s1 a1 lk ls out _ l2 fuel B1 Sq1)| |]; [cbn in Fu; lia|..].
        -- intros _ s2 (M2 & Q2 & a2 & mv & C2 & B2 & E2). splits; [congruence|eapply quiet_trans; eauto|].
           exists a2, mv. rewrite VE in *. rewrite E1 in E2. splits; auto. eapply m_stay; eauto.
        -- intros s2 (M2 & Q2 & a2 & a3 & mid1 & z & mid2 & mv & Em & C2 & D2 & B2 & E2). splits; [congruence|eapply blown_trans; eauto|].
           exists a2, a3, (x :: mid1), z, mid2, mv. rewrite VE in *. rewrite E1 in E2. splits; auto; [now rewrite Em|]. eapply m_stay; eauto.
    + intros s1 (M1 & Bl & a1 & B1 & Sm). splits; auto. assert (E1 := wld_same hd wready wrem cs _ a a1 Sm).
      exists a, a1, [], x, mid, []. splits; auto; [constructor|]. rewrite E1. now rewrite map_id.
Qed.
End T.
