(** Sequences sorted up to equivalence: what determines one, and how a saved order is restored in one. *)
From Verif Require Import Prelude OrdSpec Match Save.
Set Implicit Arguments.

(** [x] comes before [y] *)
Definition bef (l : list node) (x y : node) : Prop := exists a b, l = a ++ x :: b /\ In y b.
Lemma bef_in l x y : bef l x y -> In x l /\ In y l.
Proof. intros (a & b & -> & I). rewrite !in_app_iff. cbn. auto. Qed.
Lemma bef_total l x y : In x l -> In y l -> x <> y -> bef l x y \/ bef l y x.
Proof.
  intros I J N. apply in_split in I as (a & b & ->). rewrite in_app_iff in J. destruct J as [J|[J|J]]; [|easy|].
  - right. apply in_split in J as (c & d & ->). exists c, (d ++ x :: b). rewrite <- app_assoc. split; auto. rewrite in_app_iff. cbn. auto.
  - left. exists a, b. auto.
Qed.
Lemma bef_asym l x y : NoDup l -> bef l x y -> ~ bef l y x.
Proof.
  intros N (a & b & -> & I) (c & d & E & J). assert (P : In y (x :: b)) by now right.
  apply NoDup_app_iff in N as (Na & Nb & Nx). apply NoDup_cons_iff in Nb as (Nb & _).
  destruct (app_eq_app _ _ _ _ E) as (e & [(-> & E2)|(-> & E2)]).
  - destruct e as [|z e]; cbn in E2; injection E2 as -> E2; [subst; auto|]. apply (Nx z); [rewrite in_app_iff; cbn; auto|auto].
  - destruct e as [|z e]; cbn in E2; injection E2 as -> E2; [subst; auto|]. apply Nb. rewrite E2, in_app_iff. cbn. auto.
Qed.
Lemma bef_neq l x y : NoDup l -> bef l x y -> x <> y.
Proof. intros N B ->. apply (bef_asym N B B). Qed.
Lemma bef_cons l x y z : bef l x y -> bef (z :: l) x y.
Proof. intros (a & b & -> & I). exists (z :: a), b. auto. Qed.
Lemma bef_sub l l' x y : subseq l l' -> bef l x y -> bef l' x y.
Proof.
  induction 1 as [l'|z l l' H IH|z l l' H IH]; intros B.
  - destruct B as (a & b & E & _). destruct a; discriminate.
  - apply bef_cons. auto.
  - destruct B as (a & b & E & I). destruct a as [|u a]; cbn in E; injection E as -> E.
    + exists [], l'. split; auto. eapply subseq_in; [exact H|]. now rewrite E.
    + apply bef_cons, IH. exists a, b. auto.
Qed.
Lemma bef_app l l' x y : In x l -> In y l' -> bef (l ++ l') x y.
Proof. intros I J. apply in_split in I as (a & b & ->). exists a, (b ++ l'). rewrite <- app_assoc. split; auto. rewrite in_app_iff. auto. Qed.
Lemma bef_app_inv l l' x y : bef (l ++ l') x y -> bef l x y \/ bef l' x y \/ In x l /\ In y l'.
Proof.
  intros (a & b & E & I). destruct (app_eq_app _ _ _ _ E) as (e & [(-> & E2)|(-> & ->)]).
  - destruct e as [|z e]; cbn in E2.
    + right. left. exists [], b. auto.
    + injection E2 as <- ->. rewrite in_app_iff in I. destruct I as [I|I]; [left; exists a, e; auto|].
      right. right. split; [rewrite in_app_iff; cbn; auto|auto].
  - right. left. exists e, b. auto.
Qed.
Lemma bef_filter p l x y : bef l x y -> p x = true -> p y = true -> bef (filter p l) x y.
Proof.
  intros (a & b & -> & I) X Y. rewrite filter_app. cbn. rewrite X. exists (filter p a), (filter p b). split; auto. apply filter_In. auto.
Qed.
Lemma bef_unfilter p l x y : bef (filter p l) x y -> bef l x y.
Proof. apply bef_sub, filter_subseq. Qed.
Lemma bef_ss (R : node -> node -> Prop) l x y : StronglySorted R l -> bef l x y -> R x y.
Proof.
  intros S (a & b & -> & I). induction a as [|z a IH]; cbn in S; apply StronglySorted_inv in S as (S & F); auto.
  rewrite Forall_forall in F. auto.
Qed.
Lemma ss_bef (R : node -> node -> Prop) l : (forall x y, bef l x y -> R x y) -> StronglySorted R l.
Proof.
  induction l as [|z l IH]; intros H; constructor.
  - apply IH. intros x y B. apply H. now apply bef_cons.
  - apply Forall_forall. intros y I. apply H. exists [], l. auto.
Qed.
(** A sequence is a subsequence if its pairs are. *)
Lemma pairs_sub l : forall l', NoDup l -> NoDup l' -> incl l l' -> (forall x y, bef l x y -> bef l' x y) -> subseq l l'.
Proof.
  induction l as [|x l IH]; intros l' N N' I H; [constructor|].
  apply NoDup_cons_iff in N as (Nx & N). destruct (in_split x l' (I x (or_introl eq_refl))) as (a & b & ->).
  assert (Nb : NoDup b) by (apply NoDup_app_iff in N' as (_ & N' & _); apply NoDup_cons_iff in N'; tauto).
  assert (Ib : incl l b).
  { intros y J. assert (B : bef (x :: l) x y) by (exists [], l; auto). apply H in B.
    assert (Ne := bef_neq N' B). destruct (bef_in B) as (_ & Iy). rewrite in_app_iff in Iy. destruct Iy as [Iy|[Iy|Iy]]; [|easy|auto].
    exfalso. apply (bef_asym N' B). apply bef_app; cbn; auto. }
  assert (S : subseq l b).
  { apply IH; auto. intros y z B. destruct (bef_in B) as (Iy & Iz). destruct (@bef_total b y z) as [B'|B']; auto; [apply (bef_neq N B)|].
    exfalso. apply bef_cons with (z := x), H in B. apply (bef_asym N' B). apply bef_sub with (l := b); auto.
    clear. induction a as [|u a IH]; cbn; [apply sub_skip, subseq_refl|now apply sub_skip]. }
  clear - S. induction a as [|u a IH]; cbn; [now apply sub_take|now apply sub_skip].
Qed.
Lemma sub_len {A} (l l' : list A) : subseq l l' -> length l <= length l'.
Proof. induction 1; cbn; lia. Qed.
Lemma sub_all {A} (l l' : list A) : subseq l l' -> length l = length l' -> l = l'.
Proof.
  induction 1 as [l'|x l l' S IH|x l l' S IH]; cbn; intros E.
  - destruct l'; [auto|discriminate].
  - apply sub_len in S. lia.
  - rewrite IH; auto.
Qed.

Section Order.
(** the key of one is less than that of the other *)
Variable below : node -> node -> bool.
Hypothesis W : swo below.
Definition in_order (l : list node) : Prop := StronglySorted (fun x y => below y x = false) l.
(** neither is less than the other *)
Definition same (x y : node) : bool := negb (below x y) && negb (below y x).
(** there is another element with an equivalent key *)
Definition shared (l : list node) (x : node) : bool := existsb (fun y => negb (y =? x) && same x y) l.
Definition duplicated (l : list node) : list node := filter (shared l) l.
(** [m] has the elements of [base] in order; those with equivalent keys come as they do in [base] *)
Definition stable_of (base m : list node) : Prop :=
  Permutation m base /\ in_order m /\ forall x y, same x y = true -> bef base x y -> bef m x y.

Lemma same_iff x y : same x y = true <-> below x y = false /\ below y x = false.
Proof. unfold same. rewrite andb_true_iff, !negb_true_iff. tauto. Qed.
Lemma below_asym x y : below x y = true -> below y x = false.
Proof. intros H. destruct (below y x) eqn:E; auto. assert (T := w_trans W _ _ _ H E). rewrite (w_irr W) in T. discriminate. Qed.
Lemma below_le_trans x y z : below x y = true -> below z y = false -> below x z = true.
Proof. intros H E. destruct (w_weak W _ _ z H) as [?|?]; [auto|congruence]. Qed.
Lemma le_below_trans x y z : below y x = false -> below y z = true -> below x z = true.
Proof. intros E H. destruct (w_weak W _ _ x H) as [?|?]; [congruence|auto]. Qed.
Lemma le_trans x y z : below y x = false -> below z y = false -> below z x = false.
Proof. intros A B. destruct (below z x) eqn:E; auto. destruct (w_weak W _ _ y E); congruence. Qed.
Lemma shared_in l x : shared l x = true <-> exists y, In y l /\ y <> x /\ same x y = true.
Proof.
  unfold shared. rewrite existsb_exists. split; intros (y & I & H); exists y; split; auto.
  - apply andb_true_iff in H as (H & K). apply negb_true_iff, Nat.eqb_neq in H. auto.
  - destruct H as (H & K). rewrite K. apply Nat.eqb_neq in H. now rewrite H.
Qed.
Lemma shared_perm l l' x : Permutation l l' -> shared l x = shared l' x.
Proof.
  intros P. apply eq_iff_eq_true. rewrite !shared_in. split; intros (y & I & H); exists y; split; auto; (eapply Permutation_in; [|exact I]); auto. now symmetry.
Qed.
Lemma dup_nodup l : NoDup l -> NoDup (duplicated l).
Proof. intros N. now apply NoDup_filter. Qed.
Lemma ord_bef l x y : in_order l -> In x l -> In y l -> below x y = true -> bef l x y.
Proof.
  intros S I J B. destruct (@bef_total l x y) as [H|H]; auto; [intros ->; rewrite (w_irr W) in B; discriminate|].
  apply (bef_ss S) in H. congruence.
Qed.
Lemma in_order_sub l l' : subseq l l' -> in_order l' -> in_order l.
Proof. intros S H. apply ss_bef. intros x y B. apply (bef_ss H). now apply (bef_sub S). Qed.

(** elements in order here and in the base sequence are in this order in [m] *)
Lemma stable_sub base m ys : NoDup base -> stable_of base m -> in_order ys -> subseq ys base -> subseq ys m.
Proof.
  intros N (P & So & St) Sy Sb. assert (Nm : NoDup m) by (eapply NoDup_perm; [symmetry; exact P|auto]).
  assert (Iy : incl ys m). { intros y I. eapply Permutation_in; [symmetry; exact P|]. eapply subseq_in; eauto. }
  apply pairs_sub; auto; [eapply subseq_nodup; eauto|]. intros x y B. assert (Le := bef_ss Sy B). cbn in Le.
  destruct (bef_in B) as (Ix & Iy'). destruct (below x y) eqn:E.
  - apply ord_bef; auto.
  - apply St; [apply same_iff; auto|]. now apply (bef_sub Sb).
Qed.
(** the order of the duplicated elements determines the whole *)
Lemma order_unique m m' : NoDup m -> Permutation m m' -> in_order m -> in_order m' ->
  filter (shared m) m' = duplicated m -> m = m'.
Proof.
  intros N P So So' F. assert (N' : NoDup m') by (eapply NoDup_perm; eauto).
  apply sub_all; [|now apply Permutation_length]. apply pairs_sub; auto; [intros x; now apply Permutation_in|].
  intros x y B. assert (Le := bef_ss So B). cbn in Le. destruct (bef_in B) as (Ix & Iy). destruct (below x y) eqn:E.
  - apply ord_bef; auto; eapply Permutation_in; eauto.
  - apply bef_unfilter with (p := shared m). rewrite F. unfold duplicated. assert (Ne := bef_neq N B).
    apply bef_filter; auto; apply shared_in; [exists y|exists x]; splits; auto; apply same_iff; auto.
Qed.

(** moving [x] to the beginning of the elements equivalent to it, when all those dealt with are less *)
Lemma placed_low L ok P x Q l l' : NoDup L -> in_order L -> placed L ok P (x :: Q) l -> Permutation l' l ->
  without x l' = without x l -> in_order l' -> (forall p, In p P -> below p x = true) ->
  (forall y, In y l' -> y <> x -> below y x = false -> bef l' x y) -> placed L ok (P ++ [x]) Q l'.
Proof.
  intros N SL (Pm & E & F) Pl Wo So Lo Fr.
  assert (Nl : NoDup l) by (eapply NoDup_perm; [symmetry; exact Pm|auto]).
  assert (Nl' : NoDup l') by (eapply NoDup_perm; [symmetry; exact Pl|auto]).
  assert (Il : forall y, In y (P ++ x :: Q) -> In y l').
  { intros y I. rewrite <- E in I. eapply Permutation_in; [symmetry; exact Pl|]. eapply Permutation_in; [symmetry; exact Pm|auto]. }
  rewrite E in N. assert (Nx := NoDup_remove_2 _ _ _ N). assert (Nr := NoDup_remove_1 _ _ _ N).
  assert (Sl : subseq (P ++ filter ok Q) l').
  { apply pairs_sub; auto.
    - eapply subseq_nodup; [|exact Nr]. apply subseq_app; [apply subseq_refl|apply filter_subseq].
    - intros y I. apply Il. rewrite in_app_iff in *. rewrite filter_In in I. cbn. tauto.
    - intros y z B. destruct (bef_in B) as (Iy & Iz).
      assert (Ny : y <> x). { intros ->. apply Nx. rewrite in_app_iff in *. rewrite filter_In in Iy. tauto. }
      assert (Nz : z <> x). { intros ->. apply Nx. rewrite in_app_iff in *. rewrite filter_In in Iz. tauto. }
      assert (Bl : bef l y z).
      { apply bef_unfilter with (p := fun x => among x P || ok x). rewrite F. apply bef_sub with (l := P ++ filter ok Q); auto.
        apply subseq_app; [apply subseq_refl|]. cbn. destruct (ok x); [apply sub_skip|]; apply subseq_refl. }
      apply bef_filter with (p := fun y => negb (y =? x)) in Bl; [|now apply negb_true_iff, Nat.eqb_neq..].
      change (bef (without x l) y z) in Bl. rewrite <- Wo in Bl. now apply bef_unfilter in Bl. }
  split; [now rewrite Pl|]. split; [now rewrite <- app_assoc|].
  rewrite <- app_assoc. cbn [app]. apply subseq_filter; auto.
  - apply pairs_sub; auto.
    + eapply subseq_nodup; [|exact N]. apply subseq_app; [apply subseq_refl|]. apply sub_take, filter_subseq.
    + intros y I. apply Il. rewrite in_app_iff in *. cbn in *. rewrite filter_In in I. tauto.
    + intros y z B. assert (Cs : bef (P ++ filter ok Q) y z \/ In y P /\ z = x \/ y = x /\ In z (filter ok Q)).
      { apply bef_app_inv in B as [B|[B|(Iy & [->|Iz])]]; auto.
        - left. eapply bef_sub; [|exact B]. apply subseq_app_l, subseq_refl.
        - destruct B as (a & b & Eb & I). destruct a as [|u a]; cbn in Eb; injection Eb as <- Eb; [right; right; now subst|].
          left. apply bef_sub with (l := filter ok Q); [|exists a, b; auto]. clear. induction P; cbn; [apply subseq_refl|now apply sub_skip].
        - left. now apply bef_app. }
      destruct Cs as [C|[(Iy & ->)|(-> & Iz)]].
      * now apply (bef_sub Sl).
      * apply ord_bef; auto; apply Il; rewrite in_app_iff; cbn; auto.
      * apply filter_In in Iz as (Iz & _). apply Fr.
        -- apply Il. rewrite in_app_iff. cbn. auto.
        -- intros ->. apply Nx. rewrite in_app_iff. auto.
        -- rewrite E in SL. apply (bef_ss SL). exists P, Q. auto.
  - intros y I. rewrite orb_true_iff. rewrite among_in, !in_app_iff. cbn. rewrite filter_In.
    assert (J : In y (P ++ x :: Q)). { rewrite <- E. eapply Permutation_in; [exact Pm|]. eapply Permutation_in; eauto. }
    rewrite in_app_iff in J. cbn in J. intuition.
Qed.
End Order.
