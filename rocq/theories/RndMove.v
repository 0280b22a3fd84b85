(** Rearrangements of random access indices without calls to user code, against the list
    operations of [SeqSpec]. *)
From Verif Require Import Prelude SeqSpec RndModel RndProofs RndRot RndOps RndMore.
Set Implicit Arguments.

(** relocate 713-737, reverse 705-709, rearrange 740-753, splice within the same container
    560-622 of random_access_index.hpp *)
Definition exec_rop (o : sop) : RM unit :=
  match o with
  | SRelocate pos i => r_relocate pos i
  | SRelocateRange pos f l => r_relocate_range pos f l
  | SReverse => r_reverse
  | SRearrange view => r_rearrange view
  | SSplice pos range => internal_splice pos range
  | SInsert _ _ | SErase _ | SEraseRange _ _ => ub
  end.
(** the operations which only rearrange *)
Definition moving (o : sop) : bool :=
  match o with
  | SInsert _ _ | SErase _ | SEraseRange _ _ => false
  | _ => true
  end.

Lemma up_at r p q h : arr r ((p ++ q) ++ [h]) -> rup r (hd h q) = Some (rbs r + length p).
Proof.
  intros A. rewrite <- app_assoc in A. destruct q as [|x q]; cbn in *; now apply (up_mid A).
Qed.
Lemma app_cut {A} (a b l1 l2 : list A) : a ++ b = l1 ++ l2 ->
  exists m, (a = l1 ++ m /\ l2 = m ++ b) \/ (m <> [] /\ l1 = a ++ m /\ b = m ++ l2).
Proof.
  revert l1. induction a as [|x a IH]; intros l1 E.
  - destruct l1 as [|y l1].
    + exists []. left. cbn in *. auto.
    + exists (y :: l1). right. cbn in *. splits; auto; easy.
  - destruct l1 as [|y l1].
    + exists (x :: a). left. cbn in *. auto.
    + cbn in E. injection E as -> E. destruct (IH _ E) as (m & [(-> & ->)|(N & -> & ->)]); exists m; [left|right]; cbn; auto.
Qed.

Lemma relocate_ok r h a i b l1 l2 : arr r ((a ++ i :: b) ++ [h]) -> a ++ b = l1 ++ l2 ->
  wp (r_relocate (hd h l2) i)
     (fun _ r' => arr r' ((l1 ++ i :: l2) ++ [h]) /\ keeps r r' /\ rtk r' = rtk r) (fun _ => False) r.
Proof.
  intros A E. assert (U := @up_at r a (i :: b) h A). cbn [hd] in U.
  assert (N := a_nd A). unfold r_relocate. destruct (Nat.eqb_spec (hd h l2) i) as [Ei|Ni].
  { exfalso. assert (N2 : ~ In i ((a ++ b) ++ [h])).
    { assert (P : NoDup (i :: (a ++ b) ++ [h])) by (eapply NoDup_perm; [|exact N]; perm). now inversion P. }
    apply N2. rewrite E, !in_app_iff. destruct l2 as [|y l2]; cbn in *; auto. }
  unfold relocate_node. destruct (app_cut _ _ _ _ E) as (m & [(-> & ->)|(Nm & -> & ->)]).
  - destruct m as [|y m].
    + rewrite app_nil_r in *. cbn [app] in *.
      assert (A2 : arr r (((l1 ++ [i]) ++ b) ++ [h])) by (rewrite <- !app_assoc in *; exact A).
      eapply wp_up; [exact (up_at _ _ _ A2)|]. eapply wp_up; [exact U|].
      rewrite <- app_assoc in A. assert (W := @relocate_fw r l1 i [] (b ++ [h]) A).
      rewrite app_length. cbn [length app] in *. rewrite Nat.add_0_r, <- Nat.add_assoc in W.
      rewrite <- app_assoc. exact W.
    + replace ((l1 ++ y :: m) ++ i :: b) with (l1 ++ (y :: m) ++ i :: b) in A by now rewrite <- app_assoc.
      cbn [hd app]. eapply wp_up; [exact (@up_at r l1 ((y :: m) ++ i :: b) h A)|]. eapply wp_up; [exact U|].
      rewrite app_length, Nat.add_assoc. rewrite <- app_assoc in A. rewrite <- app_assoc in A.
      replace ((l1 ++ i :: y :: m ++ b) ++ [h]) with (l1 ++ i :: (y :: m) ++ b ++ [h]) by (rewrite <- !app_assoc; cbn; now rewrite <- !app_assoc).
      now apply relocate_bw.
  - replace (a ++ i :: m ++ l2) with ((a ++ i :: m) ++ l2) in A by now rewrite <- app_assoc.
    eapply wp_up; [exact (up_at _ _ _ A)|]. eapply wp_up; [exact U|].
    rewrite app_length. cbn [length]. replace (rbs r + (length a + S (length m))) with (rbs r + length a + 1 + length m) by lia.
    rewrite <- !app_assoc in *. cbn [app] in *. now apply relocate_fw.
Qed.
Lemma relocate_range_ok r h a seg b l1 l2 : arr r ((a ++ seg ++ b) ++ [h]) -> a ++ b = l1 ++ l2 ->
  wp (r_relocate_range (hd h l2) (hd h (seg ++ b)) (hd h b))
     (fun _ r' => arr r' ((l1 ++ seg ++ l2) ++ [h]) /\ keeps r r' /\ rtk r' = rtk r) (fun _ => False) r.
Proof.
  intros A E. assert (U1 := @up_at r a (seg ++ b) h A).
  assert (A2 := A). rewrite app_assoc in A2. assert (U2 := @up_at r (a ++ seg) b h A2).
  assert (N := a_nd A). unfold r_relocate_range, relocate_nodes.
  destruct (app_cut _ _ _ _ E) as (m & [(-> & ->)|(Nm & -> & ->)]).
  - destruct m as [|y m].
    + cbn [app]. rewrite Nat.eqb_refl. apply wp_ret. rewrite app_nil_r in A. auto using keeps_refl.
    + cbn [hd app]. destruct (Nat.eqb_spec y (hd h b)) as [Ey|_].
      { exfalso. assert (NoDup (y :: (l1 ++ m ++ seg) ++ b ++ [h])) as P.
        { eapply NoDup_perm; [|exact N]. perm. }
        inversion P as [|? ? P1 _]. apply P1. rewrite !in_app_iff. destruct b as [|z b]; cbn in *; auto. }
      rewrite <- !app_assoc in A. cbn [app] in A.
      assert (A3 : arr r ((l1 ++ (y :: m) ++ seg ++ b) ++ [h])) by (rewrite <- !app_assoc; exact A).
      eapply wp_up; [exact (@up_at r l1 ((y :: m) ++ seg ++ b) h A3)|].
      eapply wp_up; [exact U1|]. eapply wp_up; [exact U2|]. rewrite !app_length.
      replace ((l1 ++ seg ++ y :: m ++ b) ++ [h]) with (l1 ++ seg ++ (y :: m) ++ b ++ [h])
        by (rewrite <- !app_assoc; cbn; now rewrite <- !app_assoc).
      rewrite !Nat.add_assoc. apply relocate_range_bw; [exact A|easy].
  - destruct (Nat.eqb_spec (hd h l2) (hd h (m ++ l2))) as [Ey|_].
    { exfalso. destruct m as [|y m]; [easy|]. cbn in Ey. assert (NoDup (y :: (a ++ m ++ seg) ++ l2 ++ [h])) as P.
      { eapply NoDup_perm; [|exact N]. perm. }
      inversion P as [|? ? P1 _]. apply P1. rewrite !in_app_iff. destruct l2 as [|z b]; cbn in *; auto. }
    replace (a ++ seg ++ m ++ l2) with ((a ++ seg ++ m) ++ l2) in A by now rewrite <- !app_assoc.
    eapply wp_up; [exact (up_at _ _ _ A)|]. eapply wp_up; [exact U1|]. eapply wp_up; [exact U2|].
    rewrite !app_length, !Nat.add_assoc. rewrite <- !app_assoc in *. apply relocate_range_fw; exact A.
Qed.

Lemma nodup_split {A} (x : A) a b a' b' : NoDup (a ++ x :: b) -> a ++ x :: b = a' ++ x :: b' -> a = a' /\ b = b'.
Proof.
  revert a'. induction a as [|y a IH]; intros a' N E.
  - destruct a' as [|z a']; cbn in *; [now injection E as ->|]. injection E as <- E. inversion N as [|? ? N1 _]. exfalso.
    apply N1. rewrite E, in_app_iff. cbn. auto.
  - destruct a' as [|z a']; cbn in *.
    + injection E as -> E. inversion N as [|? ? N1 _]. exfalso. apply N1. rewrite in_app_iff. cbn. auto.
    + injection E as <- E. inversion N; subst. destruct (IH _ H2 E) as (-> & ->). auto.
Qed.
Lemma splice_ok r h l l1 l2 range : arr r (l ++ [h]) -> Permutation l (l1 ++ range ++ l2) ->
  filter (fun x => negb (existsb (Nat.eqb x) range)) l = l1 ++ l2 ->
  wp (internal_splice (hd h l2) range)
     (fun _ r' => arr r' ((l1 ++ range ++ l2) ++ [h]) /\ keeps r r' /\ rtk r' = rtk r) (fun _ => False) r.
Proof.
  intros A P F. assert (N := a_nd A). apply NoDup_app_iff in N as (N & _ & _).
  assert (N2 : NoDup (l1 ++ range ++ l2)) by (eapply NoDup_perm; eauto).
  apply NoDup_app_iff in N2 as (_ & N3 & _). apply NoDup_app_iff in N3 as (N3 & _ & _).
  assert (FE : forall l, out_of range l = filter (fun x => negb (existsb (Nat.eqb x) range)) l) by reflexivity.
  assert (I : incl range l).
  { intros x Ix. eapply Permutation_in; [symmetry; exact P|]. rewrite !in_app_iff. auto. }
  destruct l2 as [|y l2].
  - assert (A2 : arr r (l ++ [] ++ [h])) by exact A. rewrite app_nil_r in F.
    assert (W := @internal_splice_ok r l [] range h A2 N3). rewrite app_nil_r in W. specialize (W I).
    rewrite FE, F in W. cbn [hd] in *. exact W.
  - assert (Iy : In y l) by (eapply Permutation_in; [symmetry; exact P|]; rewrite !in_app_iff; cbn; auto).
    assert (Iy2 : In y (filter (fun x => negb (existsb (Nat.eqb x) range)) l)) by (rewrite F, in_app_iff; cbn; auto).
    apply in_split in Iy as (A1 & B1 & ->). rewrite filter_app in F. cbn [filter] in F.
    apply filter_In in Iy2 as (_ & Hy). rewrite Hy in F.
    assert (N4 : NoDup (l1 ++ y :: l2)).
    { rewrite <- F. assert (NoDup (filter (fun x => negb (existsb (Nat.eqb x) range)) (A1 ++ y :: B1))) as Q by now apply NoDup_filter.
      rewrite filter_app in Q. cbn [filter] in Q. now rewrite Hy in Q. }
    rewrite <- F in N4. destruct (nodup_split _ _ _ _ _ N4 F) as (E1 & E2).
    assert (A2 : arr r (A1 ++ (y :: B1) ++ [h])) by (rewrite app_assoc; exact A).
    assert (W := @internal_splice_ok r A1 (y :: B1) range h A2 N3 I).
    clear F. subst l1 l2. rewrite !FE in W. cbn [filter hd] in *. rewrite Hy in W. exact W.
Qed.

Theorem exec_rop_ok r h o l l' p : arr r (l ++ [h]) -> moving o = true -> sstep h o (l, p) (l', p) ->
  wp (exec_rop o) (fun _ r' => arr r' (l' ++ [h]) /\ keeps r r' /\ rtk r' = rtk r) (fun _ => False) r.
Proof.
  intros A M St. inversion St; subst; try discriminate M; cbn [exec_rop].
  - unfold r_relocate. rewrite Nat.eqb_refl. apply wp_ret. auto using keeps_refl.
  - now apply relocate_ok with (a := a) (b := b).
  - now apply relocate_range_ok with (a := a).
  - now apply reverse_ok.
  - apply rearrange_ok with (l := l); auto. now symmetry.
  - now apply splice_ok with (l := l).
Qed.
