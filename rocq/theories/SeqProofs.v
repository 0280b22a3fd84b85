From Verif Require Import Prelude SeqModel SeqSpec SeqHeap.

(** ** From the specification's view to rings and back *)
Lemma follow_app f x l1 y l2 :
  follow f x (l1 ++ y :: l2) <-> follow f x (l1 ++ [y]) /\ follow f y l2.
Proof.
  revert x. induction l1 as [|a l1 IH]; intros x; cbn; [tauto|]. rewrite IH. tauto.
Qed.

Lemma adj_follow s x l : 
  adj (R s) (x :: l) <-> follow (nx s) x l /\ adj (fun a b => pr s b = Some a) (x :: l).
Proof.
  revert x. induction l as [|y l IH]; intros x; cbn [follow]; [cbn; tauto|].
  rewrite !adj_cons2, IH. unfold R. tauto.
Qed.

Lemma adj_snoc2 {A} (P : A -> A -> Prop) l x y :
  adj P (l ++ [x; y]) <-> adj P (l ++ [x]) /\ P x y.
Proof. rewrite adj_app. cbn. tauto. Qed.

Lemma adj_prev_follow s x l :
  adj (fun a b => pr s b = Some a) (l ++ [x]) <-> follow (pr s) x (rev l).
Proof.
  revert x. induction l as [|y l IH] using rev_ind; intros x; [cbn; tauto|].
  rewrite <- app_assoc. cbn [app]. rewrite adj_snoc2, IH, rev_app_distr. cbn. tauto.
Qed.

Lemma seq_ring s h l : seq_is s h l <-> ring s (h :: l).
Proof.
  unfold seq_is, ring. cbn [app]. rewrite adj_follow.
  change (h :: l ++ [h]) with ((h :: l) ++ [h]). rewrite adj_prev_follow. reflexivity.
Qed.

Definition rings (L : list (node * list node)) : list (list node) :=
  map (fun p => fst p :: snd p) L.

Lemma heap_wf s L pool : heap_is s L pool <-> wf s (rings L) pool.
Proof.
  unfold heap_is, wf, nodes, rings.
  assert (Forall (fun p => seq_is s (fst p) (snd p)) L <->
          Forall (ring s) (map (fun p => fst p :: snd p) L)) as ->.
  { rewrite Forall_map. split; intros H; eapply Forall_impl; try exact H;
      intros [h l]; cbn; apply seq_ring. }
  reflexivity.
Qed.

(** ** Single operations *)
Lemma wf_nodup s h l rs ls : wf s ((h :: l) :: rs) ls -> NoDup (h :: l).
Proof.
  intros (_ & H & _). cbn [concat] in H. rewrite <- app_assoc in H.
  apply NoDup_app_iff in H. tauto.
Qed.

Lemma s_insert_spec s h l1 l2 rs x ls :
  wf s ((h :: l1 ++ l2) :: rs) (x :: ls) ->
  exists s', s_insert h (hd h l2) x s = Ret tt s' /\ wf s' ((h :: l1 ++ x :: l2) :: rs) ls /\ fr s s'.
Proof.
  intros W. destruct (link_spec _ _ _ _ _ _ W) as (s1 & E1 & W1 & F1).
  unfold s_insert. erewrite bind_ret by exact E1.
  destruct (Nat.eqb_spec (hd h l2) h) as [E|E].
  - assert (l2 = []) as ->.
    { destruct l2 as [|y l2]; auto. cbn in E. subst y. exfalso.
      destruct W as (_ & H2 & _). cbn in H2. inversion_clear H2.
      rewrite !in_app_iff in *. cbn in *. tauto. }
    exists s1. rewrite app_nil_r in W1. auto.
  - rewrite <- app_assoc, app_assoc in W1.
    destruct (relink_at _ _ (l1 ++ l2) x [] l1 l2 _ _ W1) as (s2 & E2 & W2 & F2).
    { now rewrite app_nil_r. }
    exists s2. split; [auto|split; auto; eapply fr_trans; eauto].
Qed.

Lemma next_at s h l1 l2 rs ls x :
  wf s ((h :: l1 ++ x :: l2) :: rs) ls -> nx s x = Some (hd h l2).
Proof.
  intros W. apply (wf_rot s (h :: l1) (x :: l2)) in W. destruct W as (H & _).
  inversion_clear H as [|? ? Hr _]. cbn in Hr. destruct l2; cbn in *; apply Hr.
Qed.

Lemma begin_at s h l rs ls : wf s ((h :: l) :: rs) ls -> nx s h = Some (hd h l).
Proof.
  intros (H & _). inversion_clear H as [|? ? Hr _]. cbn in Hr. destruct l; cbn in *; apply Hr.
Qed.

Lemma prior_end_at s h l x rs ls : wf s ((h :: l ++ [x]) :: rs) ls -> pr s h = Some x.
Proof.
  intros W. apply (wf_rot s (h :: l) [x]) in W. destruct W as (H & _).
  inversion_clear H as [|? ? Hr _]. cbn in Hr. apply Hr.
Qed.

Lemma s_erase_spec s h a x b rs ls :
  wf s ((h :: a ++ x :: b) :: rs) ls ->
  exists s', s_erase x s = Ret (hd h b) s' /\ wf s' ((h :: a ++ b) :: rs) ls /\ fr s s' /\
             nx s' x = None /\ pr s' x = None.
Proof.
  intros W. unfold s_erase.
  assert (N := next_at _ _ _ _ _ _ _ W).
  destruct (unlink_at _ _ _ _ _ _ _ W) as (s1 & E1 & W1 & F1).
  destruct (free_spec _ _ _ _ W1) as (s2 & E2 & W2 & F2 & N1 & N2 & _).
  exists s2. unfold bind. unfold get_next. rewrite N, E1, E2. cbn.
  splits; auto. eapply fr_trans; eauto.
Qed.

Lemma s_erase_range_spec s h a seg b rs ls fuel :
  wf s ((h :: a ++ seg ++ b) :: rs) ls -> length seg < fuel ->
  exists s', s_erase_range fuel (hd h (seg ++ b)) (hd h b) s = Ret (hd h b) s' /\
             wf s' ((h :: a ++ b) :: rs) ls /\ fr s s'.
Proof.
  revert s fuel. induction seg as [|x seg IH]; intros s fuel W L; (destruct fuel as [|fuel]; [cbn in L; lia|]).
  - cbn [s_erase_range app] in *. rewrite Nat.eqb_refl. exists s. auto.
  - cbn [s_erase_range app hd] in *. destruct (Nat.eqb_spec x (hd h b)) as [E|E].
    { exfalso. destruct W as (_ & H2 & _). cbn in H2. inversion_clear H2.
      destruct b as [|y b]; cbn in E; subst; rewrite !in_app_iff in *; cbn in *; try tauto.
      rewrite <- !app_assoc in H0. cbn in H0. apply NoDup_remove_2 in H0.
      rewrite !in_app_iff in H0. cbn in H0. tauto. }
    destruct (s_erase_spec _ _ _ _ _ _ _ W) as (s1 & E1 & W1 & F1 & _).
    erewrite bind_ret by exact E1.
    destruct (IH s1 fuel W1) as (s2 & E2 & W2 & F2); [cbn in L; lia|].
    exists s2. split; [auto|split; auto; eapply fr_trans; eauto].
Qed.

Lemma hd_in_end h (l : list node) rs ls s i : wf s ((h :: l) :: rs) ls -> In i l -> i <> h.
Proof.
  intros (_ & H & _) I ->. cbn in H. inversion_clear H. rewrite !in_app_iff in *. tauto.
Qed.

Lemma s_relocate_spec s h a i b l1 l2 rs ls :
  wf s ((h :: a ++ i :: b) :: rs) ls -> a ++ b = l1 ++ l2 ->
  exists s', s_relocate (hd h l2) i s = Ret tt s' /\
             wf s' ((h :: l1 ++ i :: l2) :: rs) ls /\ fr s s'.
Proof.
  intros W E. unfold s_relocate. destruct (Nat.eqb_spec (hd h l2) i) as [D|D].
  - exfalso. assert (N := wf_nodup _ _ _ _ _ W). inversion_clear N.
    apply NoDup_remove_2 in H0. rewrite E in H0.
    destruct l2 as [|y l2]; cbn in D; subst; rewrite !in_app_iff in *; cbn in *; tauto.
  - apply relink_at with (a := a) (b := b); auto.
Qed.

Lemma s_relocate_range_spec s h a seg b l1 l2 rs ls :
  wf s ((h :: a ++ seg ++ b) :: rs) ls -> a ++ b = l1 ++ l2 ->
  exists s', s_relocate_range (hd h l2) (hd h (seg ++ b)) (hd h b) s = Ret tt s' /\
             wf s' ((h :: l1 ++ seg ++ l2) :: rs) ls /\ fr s s'.
Proof.
  intros W E. unfold s_relocate_range. destruct (Nat.eqb_spec (hd h l2) (hd h b)) as [D|D].
  - assert (l1 = a /\ l2 = b) as [-> ->].
    { assert (N : NoDup (h :: a ++ b)).
      { assert (N := wf_nodup _ _ _ _ _ W). inversion_clear N. constructor.
        - rewrite !in_app_iff in *. tauto.
        - rewrite !NoDup_app_iff in *. repeat split; try tauto.
          intros x Hx. destruct H0 as (_ & _ & H0). specialize (H0 x Hx).
          rewrite !in_app_iff in H0. tauto. }
      clear W. revert l1 l2 E D N. induction a as [|c a IH]; intros l1 l2 E D N.
      - cbn in *. destruct l1 as [|d l1]; [auto|]. exfalso. subst b. cbn in D.
        inversion_clear N. destruct l2 as [|e l2]; cbn in *; subst; [tauto|].
        inversion_clear H0. rewrite in_app_iff in *. cbn in *. tauto.
      - destruct l1 as [|d l1]; cbn in E.
        + exfalso. subst l2. cbn in D. inversion_clear N. subst c.
          destruct b as [|e b]; cbn in *; [tauto|].
          inversion_clear H0. rewrite in_app_iff in *. cbn in *. tauto.
        + injection E; intros E' <-. inversion_clear N. inversion_clear H0.
          destruct (IH l1 l2 E' D) as [-> ->]; auto.
          constructor; auto. cbn in H. tauto. }
    exists s. auto.
  - apply relink_range_at with (a := a); auto.
Qed.

Lemma s_rearrange_spec s h done l view rs ls :
  wf s ((h :: l ++ done) :: rs) ls -> Permutation l view ->
  exists s', s_rearrange h view s = Ret tt s' /\
             wf s' ((h :: done ++ view) :: rs) ls /\ fr s s'.
Proof.
  revert s done l. induction view as [|x view IH]; intros s done l W P.
  - apply Permutation_sym, Permutation_nil in P. subst l. exists s. rewrite app_nil_r. cbn. auto.
  - assert (I : In x l) by (eapply Permutation_in; [symmetry; exact P|cbn; auto]).
    apply in_split in I. destruct I as (l1 & l2 & ->).
    rewrite <- app_assoc in W. cbn [app] in W.
    destruct (relink_at _ _ l1 x (l2 ++ done) (l1 ++ l2 ++ done) [] _ _ W) as (s1 & E1 & W1 & F1).
    { now rewrite app_nil_r. }
    cbn [s_rearrange]. erewrite bind_ret by exact E1.
    assert (W1' : wf s1 ((h :: (l1 ++ l2) ++ (done ++ [x])) :: rs) ls).
    { rewrite <- !app_assoc in *. auto. }
    destruct (IH s1 (done ++ [x]) (l1 ++ l2) W1') as (s2 & E2 & W2 & F2).
    { apply Permutation_sym in P. apply Permutation_cons_app_inv in P. now symmetry. }
    exists s2. split; [auto|]. rewrite <- app_assoc in W2. cbn in W2.
    split; auto; eapply fr_trans; eauto.
Qed.

(** internal splice through another index: [keep] are the elements not in
    the range, already moved elements sit just before the position *)
Definition notin (range : list node) (l : list node) :=
  filter (fun x => negb (existsb (Nat.eqb x) range)) l.

Lemma notin_in range l x : In x (notin range l) <-> In x l /\ ~ In x range.
Proof.
  unfold notin. rewrite filter_In, negb_true_iff.
  assert (existsb (Nat.eqb x) range = false <-> ~ In x range) as ->.
  { rewrite <- not_true_iff_false, existsb_exists. split.
    - intros H I. apply H. exists x. split; auto. apply Nat.eqb_refl.
    - intros H (y & I & E). apply Nat.eqb_eq in E. subst. auto. }
  reflexivity.
Qed.

Lemma notin_app range l1 l2 : notin range (l1 ++ l2) = notin range l1 ++ notin range l2.
Proof. apply filter_app. Qed.

Lemma notin_cons_out x range l : ~ In x l -> notin (x :: range) l = notin range l.
Proof.
  intros H. unfold notin. apply filter_ext_in. intros y Iy. cbn.
  destruct (Nat.eqb_spec y x); [subst; tauto|reflexivity].
Qed.

Lemma notin_nil l : notin [] l = l.
Proof. unfold notin. induction l as [|a l IH]; cbn in *; [easy|now rewrite IH]. Qed.

Lemma split_find (h : node) : forall (m : list node) l1 l2 range,
  NoDup (h :: m) -> notin range m = l1 ++ l2 ->
  (forall x, In x range -> In x m) ->
  exists m1 m2, m = m1 ++ m2 /\ hd h m2 = hd h l2 /\ notin range m1 = l1 /\ notin range m2 = l2.
Proof.
  intros m l1 l2 range N E I. destruct l2 as [|y l2].
  - rewrite app_nil_r in E. exists m, []. rewrite app_nil_r. cbn. auto.
  - cbn [hd]. assert (Iy : In y (notin range m)) by (rewrite E, in_app_iff; cbn; auto).
    pose proof Iy as Iy'. apply notin_in in Iy'. destruct Iy' as [Iy1 Iy2].
    apply in_split in Iy1. destruct Iy1 as (m1 & m2 & ->).
    exists m1, (y :: m2). repeat split; auto.
    + rewrite notin_app in E.
      assert (notin range (y :: m2) = y :: notin range m2) as Ey.
      { unfold notin. cbn. destruct (existsb (Nat.eqb y) range) eqn:Q; auto.
        exfalso. apply Iy2. apply existsb_exists in Q. destruct Q as (z & Iz & Q).
        apply Nat.eqb_eq in Q. now subst. }
      rewrite Ey in E.
      assert (N1 : ~ In y l1 /\ ~ In y (notin range m1)).
      { inversion_clear N. assert (ND : NoDup (notin range (m1 ++ y :: m2))) by (apply NoDup_filter; auto).
        rewrite notin_app, Ey, E in ND. split.
        - apply NoDup_remove_2 in ND. rewrite in_app_iff in ND. tauto.
        - rewrite <- E in ND. apply NoDup_remove_2 in ND. rewrite in_app_iff in ND. tauto. }
      revert E N1. generalize (notin range m1) as u. clear.
      induction l1 as [|c l1 IH]; intros [|d u] E [A B]; cbn in *; auto.
      * exfalso. injection E; intros; subst. tauto.
      * exfalso. injection E; intros; subst. tauto.
      * injection E; intros E' ->. f_equal. apply IH; auto.
    + rewrite notin_app in E.
      assert (notin range (y :: m2) = y :: notin range m2) as Ey.
      { unfold notin. cbn. destruct (existsb (Nat.eqb y) range) eqn:Q; auto.
        exfalso. apply Iy2. apply existsb_exists in Q. destruct Q as (z & Iz & Q).
        apply Nat.eqb_eq in Q. now subst. }
      rewrite Ey in *.
      assert (N1 : ~ In y l1 /\ ~ In y (notin range m1)).
      { inversion_clear N. assert (ND : NoDup (notin range (m1 ++ y :: m2))) by (apply NoDup_filter; auto).
        rewrite notin_app, Ey, E in ND. split.
        - apply NoDup_remove_2 in ND. rewrite in_app_iff in ND. tauto.
        - rewrite <- E in ND. apply NoDup_remove_2 in ND. rewrite in_app_iff in ND. tauto. }
      revert E N1. generalize (notin range m1) as u. clear.
      induction l1 as [|c l1 IH]; intros [|d u] E [A B]; cbn in *; auto.
      * exfalso. injection E; intros; subst. tauto.
      * exfalso. injection E; intros; subst. tauto.
      * injection E; intros E' ->. eapply IH; [exact E'|]. auto.
Qed.

Lemma s_internal_splice_spec h rs ls : forall range s l l1 l2,
  wf s ((h :: l) :: rs) ls ->
  NoDup range -> (forall x, In x range -> In x l) ->
  notin range l = l1 ++ l2 ->
  exists s', s_internal_splice (hd h l2) range s = Ret tt s' /\
             wf s' ((h :: l1 ++ range ++ l2) :: rs) ls /\ fr s s'.
Proof.
  induction range as [|x range IH]; intros s l l1 l2 W N I E.
  - rewrite notin_nil in E. subst l. exists s. auto.
  - inversion_clear N as [|? ? Nx Nr].
    assert (Ix : In x l) by (apply I; cbn; auto).
    apply in_split in Ix. destruct Ix as (a & b & ->).
    assert (ND := wf_nodup _ _ _ _ _ W).
    inversion ND as [|? ? Nh Nl]; subst.
    assert (Nxab : ~ In x (a ++ b)) by (apply NoDup_remove_2 in Nl; auto).
    assert (E' : notin range (a ++ b) = l1 ++ l2).
    { rewrite <- E, !notin_app. rewrite <- (notin_cons_out x range a), <- (notin_cons_out x range b).
      - f_equal. unfold notin at 2. cbn. rewrite Nat.eqb_refl. reflexivity.
      - rewrite in_app_iff in Nxab. tauto.
      - rewrite in_app_iff in Nxab. tauto. }
    destruct (split_find h (a ++ b) l1 l2 range) as (m1 & m2 & Em & Eh & M1 & M2); auto.
    { constructor; [rewrite in_app_iff in *; cbn in Nh; tauto|now apply NoDup_remove_1 in Nl]. }
    { intros y Iy. assert (In y (a ++ x :: b)) by (apply I; cbn; auto).
      rewrite in_app_iff in *. cbn in H. destruct H as [|[->|]]; tauto. }
    destruct (relink_at _ _ a x b m1 m2 _ _ W Em) as (s1 & E1 & W1 & F1).
    cbn [s_internal_splice]. rewrite <- Eh. erewrite bind_ret by exact E1.
    assert (G : exists s', s_internal_splice (hd h l2) range s1 = Ret tt s' /\
             wf s' ((h :: (l1 ++ [x]) ++ range ++ l2) :: rs) ls /\ fr s1 s').
    { apply (IH s1 (m1 ++ x :: m2)); auto.
      - intros y Iy. assert (In y (a ++ x :: b)) by (apply I; cbn; auto).
        assert (In y (a ++ b) \/ y = x). { rewrite in_app_iff in *. cbn in H. intuition. }
        rewrite Em in H0. rewrite in_app_iff in *. cbn. intuition.
      - rewrite notin_app. rewrite M1. rewrite <- app_assoc. f_equal.
        rewrite <- M2. unfold notin. cbn.
        destruct (existsb (Nat.eqb x) range) eqn:Q; auto.
        exfalso. apply Nx. apply existsb_exists in Q. destruct Q as (z & Iz & Q).
        apply Nat.eqb_eq in Q. now subst. }
    destruct G as (s2 & E2 & W2 & F2). exists s2. rewrite Eh.
    split; [auto|]. rewrite <- app_assoc in W2. cbn in W2.
    split; auto; eapply fr_trans; eauto.
Qed.

(** ** One step and histories *)
Lemma exec_sop_spec fuel h rs o s l p l' p' :
  sstep h o (l, p) (l', p') ->
  wf s ((h :: l) :: rs) p -> length l < fuel ->
  exists s', exec_sop fuel h o s = Ret tt s' /\ wf s' ((h :: l') :: rs) p' /\ fr s s'.
Proof.
  intros St W L. inversion St; subst; cbn [exec_sop].
  - apply s_insert_spec. eapply wf_loose_perm; [exact W|]. symmetry. apply Permutation_middle.
  - destruct (s_erase_spec _ _ _ _ _ _ _ W) as (s1 & E1 & W1 & F1 & _).
    exists s1. erewrite bind_ret by exact E1. auto.
  - destruct (s_erase_range_spec _ _ _ _ _ _ _ fuel W) as (s1 & E1 & W1 & F1).
    { rewrite !app_length in L. lia. }
    exists s1. erewrite bind_ret by exact E1. auto.
  - exists s. unfold s_relocate. rewrite Nat.eqb_refl. auto.
  - eapply s_relocate_spec; eauto.
  - eapply s_relocate_range_spec; eauto.
  - apply reverse_spec; auto.
  - destruct (s_rearrange_spec s h [] l l' rs p') as (s1 & E1 & W1 & F1); auto.
    + now rewrite app_nil_r.
    + exists s1. auto.
  - assert (ND := wf_nodup _ _ _ _ _ W). inversion ND; subst.
    apply s_internal_splice_spec with (l := l); auto.
    + eapply Permutation_NoDup in H2; [|exact H3]. rewrite !NoDup_app_iff in H2. tauto.
    + intros x Ix. eapply Permutation_in; [symmetry; exact H3|]. rewrite !in_app_iff. auto.
Qed.

Lemma sstep_length h o l p l' p' :
  sstep h o (l, p) (l', p') -> length l' + length p' <= length l + length p.
Proof.
  intros St. inversion St; subst; rewrite ?app_length; cbn; rewrite ?app_length, ?rev_length; cbn; try lia.
  all: unfold node in *; match goal with
       | H : _ ++ _ = _ ++ _ |- _ => apply (f_equal (@length nat)) in H; rewrite ?app_length in H; cbn in *; lia
       | H : Permutation _ _ |- _ => apply Permutation_length in H; rewrite ?app_length in H; cbn in *; lia
       end.
Qed.

Lemma exec_sops_spec fuel h rs os : forall s c c',
  ssteps h os c c' ->
  wf s ((h :: fst c) :: rs) (snd c) -> length (fst c) + length (snd c) < fuel ->
  exists s', exec_sops fuel h os s = Ret tt s' /\ wf s' ((h :: fst c') :: rs) (snd c') /\ fr s s'.
Proof.
  induction os as [|o os IH]; intros s c c' St W L; inversion St; subst.
  - exists s. cbn. auto.
  - destruct c as [l p], c2 as [l2 p2]. cbn [fst snd] in *.
    destruct (exec_sop_spec fuel h rs _ _ _ _ _ _ H1 W) as (s1 & E1 & W1 & F1); [lia|].
    destruct (IH s1 (l2, p2) c' H4) as (s2 & E2 & W2 & F2); auto.
    { apply sstep_length in H1. cbn. lia. }
    exists s2. cbn [exec_sops]. erewrite bind_ret by exact E1.
    split; auto. split; auto. eapply fr_trans; eauto.
Qed.
