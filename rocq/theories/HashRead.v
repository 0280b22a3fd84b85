(** Reading the links of whole lists of segments of hashed nodes. *)
From Verif Require Import Prelude Layer LayerBase HashModel HashHeap HashAlg HashLink HashLay HashOps HashIdx.
Set Implicit Arguments.

Section Read.
Variables (a n : nat) (hd : node).
Notation layout := (layout a n hd).

Lemma Rd_eq {A} (m : HM A) r h : Rd m r h <-> m h = Ret r h.
Proof.
  unfold Rd, wp. split.
  - destruct (m h); try easy. now intros (-> & ->).
  - intros ->. auto.
Qed.
Lemma Rd_rd h C l v : hs h C -> In (l, v) C -> Rd (rd l) v h.
Proof. intros H I. apply Rd_eq. unfold rd. now rewrite (hs_in _ _ H I). Qed.
Lemma Rd_pri h C b x : hs h C -> In (PR b, PN x) C -> Rd (pri b) x h.
Proof. intros H I. apply Rd_eq. unfold pri, rd, bind. now rewrite (hs_in _ _ H I). Qed.

Lemma beyond_last h i x j q F z :
  hs h (joint a (Some i) x j q ++ (PR (PN x), z) :: F) -> Rd (beyond x) q h.
Proof.
  intros H. unfold joint in H. cbn [same_bucket] in H. unfold Rd, beyond.
  destruct (i =? j); cbn [app] in H; repeat hstep; auto.
Qed.

Lemma n_after_plain' h C x y e : hs h C -> In (NX x, PN y) C -> In (PR (PN y), PN x) C -> Rd (n_after_or e x) y h.
Proof. intros H J1 J2. unfold Rd, n_after_or. repeat hstep; auto. Qed.

(** the joints around the last element of a segment *)
Lemma last_cells h I1 i g I2 F : wfi n (I1 ++ (i, g) :: I2) -> hs h (layout (I1 ++ (i, g) :: I2) ++ F) ->
  exists z C, hs h (joint a (Some i) (last_of g) (nidx n I2) (nnode hd I2) ++ (PR (PN (last_of g)), z) :: C).
Proof.
  intros W H. apply wfi_app in W as (W1 & W2). apply wfi_cons in W2 as ((Li & Sg & Ng) & W2).
  apply (hs_perm (lay_perm0 a n hd I1 I2 i F g)) in H.
  destruct (shaped_cases Sg) as [(x & ->)|(f & s & m & l & ->)].
  - cbn [first_of last_of List.hd last inner app] in *.
    assert (E : exists v J, Permutation (joint a (idx None I1) (lastn hd I1) i x) ((PR (PN x), v) :: J)).
    { unfold joint. destruct (same_bucket (idx None I1) i); do 2 eexists; ptac. }
    destruct E as (v & J & E). exists v. eexists. eapply hs_perm; [|exact H].
    assert (P : forall A B D : list cell, Permutation (A ++ B ++ D) (B ++ A ++ D)) by (intros; permc). etransitivity; [apply P|].
    apply Permutation_app_head. exact (Permutation_app_tail _ E).
  - rewrite grp_first, grp_last in *. rewrite inner_grp in H. exists (PN (last m s)). eexists. eapply hs_perm; [|exact H].
    assert (P : forall A B D G (c c' : cell), Permutation (A ++ (B ++ [c; c']) ++ D ++ G) (D ++ c' :: A ++ B ++ [c] ++ G)) by (intros; permc).
    change ((NX f, PN s) :: (PR (PN s), PN l) :: dl s m ++ [(NX (last m s), PN f); (PR (PN l), PN (last m s))])
      with (((NX f, PN s) :: (PR (PN s), PN l) :: dl s m) ++ [(NX (last m s), PN f); (PR (PN l), PN (last m s))]).
    apply P.
Qed.
(** the joints around the first element of a segment *)
Lemma first_cells h I1 i g I2 F : hs h (layout (I1 ++ (i, g) :: I2) ++ F) ->
  exists v C, hs h (inner g ++ joint a (Some i) (last_of g) (nidx n I2) (nnode hd I2) ++ (PR (PN (first_of g)), PN (lastn hd I1)) ::
     (NX (lastn hd I1), v) :: C) /\
    Permutation (layout (I1 ++ (i, g) :: I2) ++ F)
     (inner g ++ joint a (Some i) (last_of g) (nidx n I2) (nnode hd I2) ++ (PR (PN (first_of g)), PN (lastn hd I1)) :: (NX (lastn hd I1), v) :: C).
Proof.
  intros H. assert (P0 := lay_perm0 a n hd I1 I2 i F g).
  assert (E : exists v J, Permutation (joint a (idx None I1) (lastn hd I1) i (first_of g)) ((PR (PN (first_of g)), PN (lastn hd I1)) :: (NX (lastn hd I1), v) :: J)).
  { unfold joint. destruct (same_bucket (idx None I1) i); do 2 eexists; ptac. }
  destruct E as (v & J & E). exists v. eexists.
  match goal with |- _ /\ ?G => enough (P : G) end. { split; [eapply hs_perm; eauto|exact P]. }
  etransitivity; [exact P0|].
  assert (P : forall A B D G : list cell, Permutation (A ++ B ++ D ++ G) (B ++ D ++ A ++ G)) by (intros; permc). etransitivity; [apply P|].
  do 2 apply Permutation_app_head. exact (Permutation_app_tail _ E).
Qed.

Definition locally (i : nat) (I2 : list item) : node := if i =? nidx n I2 then nnode hd I2 else null.
Section At.
Variables (h : heap) (F : list cell) (I1 I2 : list item) (i : nat).
Lemma beyond_lay g : wfi n (I1 ++ (i, g) :: I2) -> hs h (layout (I1 ++ (i, g) :: I2) ++ F) -> Rd (beyond (last_of g)) (nnode hd I2) h.
Proof. intros W H. destruct (last_cells _ _ _ _ _ W H) as (z & C & H'). eapply beyond_last; exact H'. Qed.
Lemma u_after_lay x : wfi n (I1 ++ (i, [x]) :: I2) -> hs h (layout (I1 ++ (i, [x]) :: I2) ++ F) -> Rd (u_after x) (nnode hd I2) h.
Proof. intros W H. destruct (last_cells _ _ _ _ _ W H) as (z & C & H'). eapply u_after_last; exact H'. Qed.
Lemma u_after_local_lay x : wfi n (I1 ++ (i, [x]) :: I2) -> hs h (layout (I1 ++ (i, [x]) :: I2) ++ F) -> Rd (u_after_local x) (locally i I2) h.
Proof. intros W H. destruct (last_cells _ _ _ _ _ W H) as (z & C & H'). eapply u_after_local_last; exact H'. Qed.
Lemma n_after_lay_last g : wfi n (I1 ++ (i, g) :: I2) -> hs h (layout (I1 ++ (i, g) :: I2) ++ F) -> Rd (n_after (last_of g)) (nnode hd I2) h.
Proof. intros W H. destruct (last_cells _ _ _ _ _ W H) as (z & C & H'). eapply n_after_last; exact H'. Qed.
Lemma n_after_local_lay_last g : wfi n (I1 ++ (i, g) :: I2) -> hs h (layout (I1 ++ (i, g) :: I2) ++ F) -> Rd (n_after_local (last_of g)) (locally i I2) h.
Proof. intros W H. destruct (last_cells _ _ _ _ _ W H) as (z & C & H'). eapply n_after_local_last; exact H'. Qed.
Lemma n_after_lay_in e g1 x y g2 : wfi n (I1 ++ (i, g1 ++ x :: y :: g2) :: I2) -> hs h (layout (I1 ++ (i, g1 ++ x :: y :: g2) :: I2) ++ F) ->
  Rd (n_after_or e x) y h.
Proof.
  intros W H. assert (Nd := layout_nodup _ _ _ W H).
  destruct (first_cells _ _ _ _ _ H) as (v & C & H1 & P1).
  assert (Lc := fun z => @lay_lctx a n hd I1 i (g1 ++ x :: y :: g2) I2 F h z W H).
  apply wfi_app in W as (W1 & W2). apply wfi_cons in W2 as ((Li & Sg & Ng) & W2).
  apply NoDup_app_iff in Nd as (_ & Nd & _). rewrite elems_app in Nd. cbn [elems flat_map snd] in Nd.
  inversion Nd as [|? ? _ Nd1]; subst. apply NoDup_app_iff in Nd1 as (_ & Nd1 & _). apply NoDup_app_iff in Nd1 as (Nd1 & _).
  destruct g1 as [|f g1].
  - assert (N : g2 <> []). { intros ->. destruct Sg as [E|E]; cbn in E; lia. }
    destruct (snoc_cases N) as (m & l & ->). cbn [app] in *. rewrite grp_last, grp_first in *.
    eapply n_after_first. eapply hs_perm; [|exact H1].
    assert (P : forall A B D (c : cell), Permutation (A ++ B ++ c :: D) (A ++ c :: B ++ D)) by (intros; permc). apply P.
  - destruct g2 as [|z g2].
    + assert (E : exists s m, g1 ++ [x] = s :: m /\ last m s = x).
      { destruct g1 as [|s g1]; [exists x, []; auto|]. exists s, (g1 ++ [x]). split; auto. apply last_last. }
      destruct E as (s & m & E1 & E2).
      assert (Eg : (f :: g1) ++ [x; y] = f :: s :: m ++ [y]). { cbn. change [x; y] with ([x] ++ [y]). now rewrite app_assoc, E1. }
      rewrite Eg in *. rewrite grp_last, grp_first in *. rewrite <- E2.
      assert (Lx : lctx (layout (I1 ++ (i, f :: s :: m ++ [y]) :: I2) ++ F) (lastn hd I1) x).
      { apply Lc.
        - rewrite <- Eg. apply in_or_app. right. now left.
        - rewrite <- Eg in Nd1. apply NoDup_app_iff in Nd1 as (_ & Nd1 & _). inversion Nd1 as [|? ? Nd2 _].
          intros Ey. apply Nd2. now left. }
      eapply n_after_penult with (p := lastn hd I1) (u := v).
      * eapply hs_perm; [|exact H1].
        assert (P : forall A B D (c c' : cell), Permutation (A ++ B ++ c :: c' :: D) (A ++ c :: c' :: B ++ D)) by (intros; permc). apply P.
      * rewrite E2. eapply lctx_perm; [|exact Lx]. rewrite P1. permc.
    + destruct (@snoc_cases (z :: g2)) as (g3 & l & E); [easy|]. rewrite E in *. clear z g2 E.
      assert (E : exists s m, g1 ++ x :: y :: g3 = s :: m /\ In (NX x, PN y) (dl s m) /\ In (PR (PN y), PN x) (dl s m)).
      { destruct g1 as [|s g1].
        - exists x, (y :: g3). cbn. auto.
        - exists s, (g1 ++ x :: y :: g3). split; [reflexivity|]. rewrite dl_app, !in_app_iff. cbn. auto 8. }
      destruct E as (s & m & E1 & E2 & E3).
      assert (Eg : (f :: g1) ++ x :: y :: g3 ++ [l] = f :: s :: m ++ [l]).
      { cbn. f_equal. change (s :: m ++ [l]) with ((s :: m) ++ [l]). rewrite <- E1, <- app_assoc. reflexivity. }
      rewrite Eg in *. rewrite inner_grp in H1. eapply n_after_plain'; [exact H1| |];
        rewrite !in_app_iff; left; do 2 right; apply in_or_app; auto.
Qed.
Lemma n_next_lay g : wfi n (I1 ++ (i, g) :: I2) -> hs h (layout (I1 ++ (i, g) :: I2) ++ F) ->
  Rd (n_next_to_inspect (first_of g)) (locally i I2) h.
Proof.
  intros W H. destruct (first_cells _ _ _ _ _ H) as (v & C & H1 & P1).
  apply wfi_app in W as (W1 & W2). apply wfi_cons in W2 as ((Li & Sg & Ng) & W2).
  destruct (shaped_cases Sg) as [(x & ->)|(f & s & m & l & ->)].
  - eapply n_next_one; exact H1.
  - rewrite grp_first, grp_last in *. eapply n_next_grp; exact H1.
Qed.
Lemma first_of_group_lay g : wfi n (I1 ++ (i, g) :: I2) -> hs h (layout (I1 ++ (i, g) :: I2) ++ F) ->
  Rd (n_first_of_group (first_of g)) (2 <? length g) h.
Proof.
  intros W H. destruct (first_cells _ _ _ _ _ H) as (v & C & H1 & P1).
  apply wfi_app in W as (W1 & W2). apply wfi_cons in W2 as ((Li & Sg & Ng) & W2).
  destruct (shaped_cases Sg) as [(x & ->)|(f & s & m & l & ->)].
  - eapply n_first_of_group_one; exact H1.
  - rewrite grp_first, grp_last in *. cbn [length]. rewrite app_length. cbn [length]. replace (length m + 1) with (S (length m)) by lia.
    eapply n_first_of_group_grp. eapply hs_perm; [|exact H1].
    assert (P : forall A B D (c : cell), Permutation (A ++ B ++ c :: D) (A ++ c :: B ++ D)) by (intros; permc). apply P.
Qed.
Lemma last_by_first_lay g : wfi n (I1 ++ (i, g) :: I2) -> hs h (layout (I1 ++ (i, g) :: I2) ++ F) -> 3 <= length g ->
  Rd (b <- nxt (first_of g) ;; pri b) (last_of g) h.
Proof.
  intros W H Lg. destruct (first_cells _ _ _ _ _ H) as (v & C & H1 & P1).
  apply wfi_app in W as (W1 & W2). apply wfi_cons in W2 as ((Li & Sg & Ng) & W2).
  destruct (shaped_cases Sg) as [(x & ->)|(f & s & m & l & ->)]; [cbn in Lg; lia|].
  rewrite grp_first, grp_last in *. eapply last_by_first. exact H1.
Qed.
(** cells of the first element, as read by last_of_range and end_of_range *)
Lemma one_next x : wfi n (I1 ++ (i, [x]) :: I2) -> hs h (layout (I1 ++ (i, [x]) :: I2) ++ F) -> nidx n I2 = i ->
  Rd (nxt x) (PN (nnode hd I2)) h /\ Rd (pri (PN (nnode hd I2))) x h.
Proof.
  intros W H E. destruct (first_cells _ _ _ _ _ H) as (v & C & H1 & P1). cbn [inner app last_of last] in H1.
  rewrite E in H1. rewrite joint_same in H1. split; [eapply Rd_rd|eapply Rd_pri]; try exact H1; cbn; auto.
Qed.
Lemma one_end x : wfi n (I1 ++ (i, [x]) :: I2) -> hs h (layout (I1 ++ (i, [x]) :: I2) ++ F) -> nidx n I2 <> i ->
  exists b, Rd (nxt x) b h /\ Rd (pri b) (nnode hd I2) h /\ nnode hd I2 <> x /\ Rd (pri (PN (nnode hd I2))) x h.
Proof.
  intros W H E. destruct (first_cells _ _ _ _ _ H) as (v & C & H1 & P1). cbn [inner app last_of last] in H1.
  rewrite joint_diff in H1 by congruence. cbn [app first_of List.hd] in H1. exists (PB a (nidx n I2)).
  repeat split; [eapply Rd_rd|eapply Rd_pri| |eapply Rd_pri]; try exact H1; cbn; auto.
  intros Eq. destruct H1 as (N & _). cbn [map fst] in N. rewrite Eq in N. dup N.
Qed.
Lemma grp_next g : wfi n (I1 ++ (i, g) :: I2) -> hs h (layout (I1 ++ (i, g) :: I2) ++ F) -> 3 <= length g ->
  exists s p, Rd (nxt (first_of g)) (PN s) h /\ Rd (pri (PN s)) (last_of g) h /\ last_of g <> first_of g /\
    Rd (pri (PN (last_of g))) p h /\ p <> first_of g.
Proof.
  intros W H Lg. destruct (first_cells _ _ _ _ _ H) as (v & C & H1 & P1).
  apply wfi_app in W as (W1 & W2). apply wfi_cons in W2 as ((Li & Sg & Ng) & W2).
  destruct (shaped_cases Sg) as [(x & ->)|(f & s & m & l & ->)]; [cbn in Lg; lia|].
  rewrite grp_first, grp_last in *. rewrite inner_grp in H1. exists s, (last m s).
  assert (P : forall (A B D : list cell) (c1 c2 c3 c4 c : cell), Permutation ((c1 :: c2 :: A ++ [c3; c4]) ++ B ++ c :: D) (c1 :: c2 :: c3 :: c4 :: c :: A ++ B ++ D)) by (intros; permc).
  apply (hs_perm (P _ _ _ _ _ _ _ _)) in H1. clear P.
  repeat split; [eapply Rd_rd|eapply Rd_pri| |eapply Rd_pri|]; try exact H1; try (cbn; tauto).
  - intros ->. destruct H1 as (N & _). cbn [map fst] in N. dup N.
  - intros E. destruct H1 as (N & _). cbn [map fst] in N. rewrite E in N. dup N.
Qed.
End At.

(** ** Entry points *)
Fixpoint bfirst (i : nat) (I : list item) : node :=
  match I with [] => null | (j, g) :: r => if i =? j then first_of g else bfirst i r end.
Lemma bfirst_split i I :
  (exists I1 g I2, I = I1 ++ (i, g) :: I2 /\ ~ In i (map fst I1) /\ bfirst i I = first_of g) \/
  (~ In i (map fst I) /\ bfirst i I = null).
Proof.
  induction I as [|(j, g) I IH]; [right; auto|]. cbn [bfirst map fst In]. destruct (Nat.eqb_spec i j) as [->|Ne].
  - left. exists [], g, I. auto.
  - destruct IH as [(I1 & g2 & I2 & -> & N & ->)|(N & ->)].
    + left. exists ((j, g) :: I1), g2, I2. repeat split; auto. cbn. intros [E|E]; congruence.
    + right. split; auto. intros [E|E]; congruence.
Qed.
Lemma bucket_lay h I F i : hs h (layout I ++ F) -> i < n -> Rd (pri (PB a i)) (bfirst i I) h.
Proof.
  intros H L. destruct (bfirst_split i I) as [(I1 & g & I2 & -> & N & ->)|(N & ->)].
  - eapply Rd_pri; [exact H|]. eapply Permutation_in; [symmetry; apply lay_perm0|]. rewrite joint_diff; [cbn; auto|].
    intros E. apply N. now apply idx_in.
  - eapply Rd_pri; [exact H|]. apply in_or_app. left. apply in_or_app. right. now apply empties_in.
Qed.
Lemma last_lay h I F : hs h (layout I ++ F) -> Rd (pri (PN hd)) (lastn hd I) h.
Proof.
  intros H. eapply Rd_pri; [exact H|]. rewrite layout_end. rewrite !in_app_iff. left. left. right. apply in_joint_r.
Qed.
Lemma begin_lay h I F : wfi n I -> hs h (layout I ++ F) -> Rd (b <- nxt hd ;; pri b) (nnode hd I) h.
Proof.
  intros W H. destruct I as [|(i, g) I].
  - rewrite layout_end in H. cbn [links idx lastn app] in H. rewrite joint_diff in H by easy. cbn [app] in H.
    unfold Rd. repeat hstep. cbn. auto.
  - apply (hs_perm (lay_perm0 a n hd [] I i F g)) in H. cbn [links idx lastn app] in H. rewrite joint_diff in H by easy. cbn [app] in H.
    unfold Rd. repeat hstep. cbn. auto.
Qed.
End Read.
