(** Linking of hashed nodes and segments, cutting them off, and reading the links. *)
From Verif Require Import Prelude Layer LayerBase HashModel HashHeap HashAlg.
Set Implicit Arguments.

Lemma joint_same a i p q : joint a (Some i) p i q = plain p q.
Proof. unfold joint. cbn. now rewrite Nat.eqb_refl. Qed.
Lemma joint_diff a pi p i q : pi <> Some i -> joint a pi p i q = [(NX p, PB a i); (PR (PB a i), PN q); (PR (PN q), PN p)].
Proof. unfold joint. now destruct (same_bucket_spec pi i). Qed.

Section Link.
Variable a : nat.
Lemma link_link_range x b e : link x b e = link_range x x b e.
Proof. reflexivity. Qed.
Lemma append_append_range x e : u_append x e = append_range x x e.
Proof. reflexivity. Qed.
(** ends of a segment not linked to anything *)
Definition loose (f l : node) (v w : bptr) : list cell := [(PR (PN f), v); (NX l, w)].
(** in front of a bucket with elements *)
Lemma link_range_front h pi p i f x y e v w F :
  pi <> Some i -> f <> null ->
  hs h (joint a pi p i f ++ loose x y v w ++ F) ->
  wp (link_range x y (PB a i) e) (fun _ h' => hs h' (joint a pi p i x ++ joint a (Some i) y i f ++ F)) (fun _ => False) h.
Proof.
  intros N1 N2 H. unfold link_range, loose in *. buckets. cbn [app] in H. repeat hstep. done_cells.
Qed.
(** into an empty bucket *)
Lemma link_range_empty h pi p i n hd x y v w F :
  pi <> Some i -> i <> n -> pi <> Some n ->
  hs h (joint a pi p n hd ++ (PR (PB a i), PN null) :: loose x y v w ++ F) ->
  wp (link_range x y (PB a i) hd) (fun _ h' => hs h' (joint a pi p i x ++ joint a (Some i) y n hd ++ F)) (fun _ => False) h.
Proof.
  intros N1 N2 N3 H. unfold link_range, loose in *. buckets. cbn [app] in H. repeat hstep. done_cells.
Qed.
Lemma append_range_local h p i n hd x y v w F :
  i <> n ->
  hs h (joint a (Some i) p n hd ++ loose x y v w ++ F) ->
  wp (append_range x y hd) (fun _ h' => hs h' (joint a (Some i) p i x ++ joint a (Some i) y n hd ++ F)) (fun _ => False) h.
Proof.
  intros N2 H. unfold append_range, loose in *. buckets. cbn [app] in H. repeat hstep. done_cells.
Qed.

(** next to an equivalent element *)
Lemma n_link_one h pi p i f j q x v w F :
  hs h (joint a pi p i f ++ joint a (Some i) f j q ++ loose x x v w ++ F) ->
  wp (n_link x f f) (fun _ h' => hs h' (joint a pi p i x ++ joint a (Some i) x i f ++ joint a (Some i) f j q ++ F)) (fun _ => False) h.
Proof.
  intros H. unfold loose in *. buckets; cbn [app] in H; unfold n_link, n_first_of_bucket; repeat hstep; done_cells.
Qed.
Lemma n_link_two h pi p i f l j q x v w F :
  hs h (joint a pi p i f ++ plain f l ++ joint a (Some i) l j q ++ loose x x v w ++ F) ->
  wp (n_link x f l) (fun _ h' => hs h' (joint a pi p i x ++ inner [x; f; l] ++ joint a (Some i) l j q ++ F)) (fun _ => False) h.
Proof.
  intros H. unfold loose, plain in *. change [x; f; l] with (x :: f :: [] ++ [l]).
  rewrite inner_grp. cbn [dl last]. buckets; cbn [app] in H; unfold n_link, n_first_of_bucket; repeat hstep; done_cells.
Qed.
Lemma n_link_group h pi p i f s m l x v w F :
  hs h (joint a pi p i f ++ inner (f :: s :: m ++ [l]) ++ loose x x v w ++ F) ->
  wp (n_link x f l) (fun _ h' => hs h' (joint a pi p i x ++ inner (x :: f :: s :: m ++ [l]) ++ F)) (fun _ => False) h.
Proof.
  intros H. unfold n_link, n_first_of_bucket, loose, plain in *. rewrite (app_comm_cons m). rewrite inner_grp in *.
  rewrite last_cons. cbn [dl last]. generalize dependent (last m s). intros y H. unfold joint in *.
  destruct (same_bucket pi i); cbn [app] in H.
  - reorder ([(NX p, PN f); (PR (PN f), PN p); (NX f, PN s); (PR (PN s), PN l); (NX y, PN f); (PR (PN l), PN y);
     (PR (PN x), v); (NX x, w)] ++ dl s m ++ F). cbn [app] in H. repeat hstep. finish.
  - reorder ([(NX p, PB a i); (PR (PB a i), PN f); (PR (PN f), PN p); (NX f, PN s); (PR (PN s), PN l); (NX y, PN f); (PR (PN l), PN y);
     (PR (PN x), v); (NX x, w)] ++ dl s m ++ F). cbn [app] in H. repeat hstep. finish.
Qed.

(** ** Cutting off *)
Lemma u_unlink_last_local h pi p i x n hd F :
  i <> n -> pi <> Some n ->
  hs h (joint a pi p i x ++ joint a (Some i) x n hd ++ F) ->
  wp (u_unlink_last hd)
     (fun r h' => r = negb (same_bucket pi i) /\
        hs h' (joint a pi p n hd ++ emptied a pi i n ++ loose x x (PN p) (PB a n) ++ F)) (fun _ => False) h.
Proof.
  intros N1 N2 H. unfold loose. buckets; cbn [app] in H; unfold u_unlink_last; repeat hstep; (split; [reflexivity|done_cells]).
Qed.
(** a segment [g] has its first and last element, and some links *)
Lemma cut_local h pi p i f l n hd F e :
  i <> n -> pi <> Some n -> e = negb (same_bucket pi i) ->
  hs h (joint a pi p i f ++ joint a (Some i) l n hd ++ F) ->
  wp (cut_group e f l hd)
     (fun r h' => r = (f, e) /\ hs h' (joint a pi p n hd ++ emptied a pi i n ++ loose f l (PN p) (PB a n) ++ F)) (fun _ => False) h.
Proof.
  intros N1 N2 Ee H. unfold loose. buckets; cbn [app] in H; cbn [negb]; unfold cut_group; repeat hstep; (split; [reflexivity|done_cells]).
Qed.
Lemma unlink_last_group_one h pi p i x n hd F :
  i <> n -> pi <> Some n ->
  hs h (joint a pi p i x ++ joint a (Some i) x n hd ++ F) ->
  wp (unlink_last_group hd)
     (fun r h' => r = (x, negb (same_bucket pi i)) /\
        hs h' (joint a pi p n hd ++ emptied a pi i n ++ loose x x (PN p) (PB a n) ++ F)) (fun _ => False) h.
Proof.
  intros N1 N2 H. assert (W := fun e E => @cut_local h pi p i x x n hd F e N1 N2 E H). unfold unlink_last_group, linked_left, n_first_of_bucket.
  destruct (same_bucket_spec pi i) as [->|Ne].
  - cbn [negb] in *. rewrite joint_same, joint_diff in H by congruence. unfold plain in H. cbn [app] in H. repeat hstep. apply W. reflexivity.
  - cbn [negb] in *. rewrite !joint_diff in H by congruence. cbn [app] in H.
    repeat hstep. apply W. reflexivity.
Qed.
Lemma unlink_last_group_grp h pi p i f s m l n hd F :
  i <> n -> pi <> Some n ->
  hs h (joint a pi p i f ++ inner (f :: s :: m ++ [l]) ++ joint a (Some i) l n hd ++ F) ->
  wp (unlink_last_group hd)
     (fun r h' => r = (f, negb (same_bucket pi i)) /\
        hs h' (joint a pi p n hd ++ emptied a pi i n ++ loose f l (PN p) (PB a n) ++ inner (f :: s :: m ++ [l]) ++ F)) (fun _ => False) h.
Proof.
  intros N1 N2 H. assert (W := fun e E => @cut_local h pi p i f l n hd (inner (f :: s :: m ++ [l]) ++ F) e N1 N2 E).
  specialize (fun e E => W e E ltac:(eapply hs_perm; [|exact H]; permc)).
  unfold unlink_last_group, linked_left, n_first_of_bucket. rewrite inner_grp in *. generalize dependent (last m s). intros y H W.
  destruct (same_bucket_spec pi i) as [->|Ne].
  - cbn [negb] in *. rewrite joint_same, joint_diff in H by congruence. unfold plain in H.
    reorder ([(NX p, PN f); (PR (PN f), PN p); (NX f, PN s); (PR (PN s), PN l); (NX y, PN f); (PR (PN l), PN y);
      (NX l, PB a n); (PR (PB a n), PN hd); (PR (PN hd), PN l)] ++ dl s m ++ F). cbn [app] in H. repeat hstep. apply W. reflexivity.
  - cbn [negb] in *. rewrite !joint_diff in H by congruence.
    reorder ([(NX p, PB a i); (PR (PB a i), PN f); (PR (PN f), PN p); (NX f, PN s); (PR (PN s), PN l); (NX y, PN f); (PR (PN l), PN y);
      (NX l, PB a n); (PR (PB a n), PN hd); (PR (PN hd), PN l)] ++ dl s m ++ F). cbn [app] in H.
    repeat hstep. apply W. reflexivity.
Qed.
(** a segment inside of a chain, as found by its last element *)
Definition first_by_last (x : node) : HM node :=
  c <- linked_left x ;;
  if c : bool then ret x
  else
    c <- n_first_of_bucket x ;;
    if c : bool then ret x else p <- pri (PN x) ;; n <- nxt p ;; pfrom n.
Lemma first_by_last_one h pi p i x F w :
  hs h (joint a pi p i x ++ (NX x, w) :: F) ->
  wp (first_by_last x) (fun r h' => r = x /\ h' = h) (fun _ => False) h.
Proof.
  intros H. unfold joint in H. destruct (same_bucket pi i); cbn [app] in H; unfold first_by_last, linked_left, n_first_of_bucket; repeat hstep; auto.
Qed.
Lemma first_by_last_grp h pi p i f s m l F w :
  hs h (joint a pi p i f ++ inner (f :: s :: m ++ [l]) ++ (NX l, w) :: F) ->
  wp (first_by_last l) (fun r h' => r = f /\ h' = h) (fun _ => False) h.
Proof.
  intros H. rewrite inner_grp in H. generalize dependent (last m s). intros y H. unfold joint in H. unfold first_by_last, linked_left, n_first_of_bucket.
  destruct (same_bucket pi i).
  - reorder ([(NX p, PN f); (PR (PN f), PN p); (NX f, PN s); (PR (PN s), PN l); (NX y, PN f); (PR (PN l), PN y);
      (NX l, w)] ++ dl s m ++ F). cbn [app] in H. repeat hstep. auto.
  - reorder ([(NX p, PB a i); (PR (PB a i), PN f); (PR (PN f), PN p); (NX f, PN s); (PR (PN s), PN l); (NX y, PN f); (PR (PN l), PN y);
      (NX l, w)] ++ dl s m ++ F). cbn [app] in H. repeat hstep. auto.
Qed.
Lemma unlink_range_one h pi p i x j q F :
  (pi = Some j -> i = j) ->
  hs h (joint a pi p i x ++ joint a (Some i) x j q ++ F) ->
  wp (unlink_range x x)
     (fun _ h' => exists v w, hs h' (joint a pi p j q ++ emptied a pi i j ++ loose x x v w ++ F)) (fun _ => False) h.
Proof.
  intros N1 H. unfold loose. buckets; cbn [app] in H; unfold unlink_range, n_first_of_bucket, n_last_of_bucket; repeat hstep; do 2 eexists; done_cells.
Qed.
Lemma unlink_range_grp h pi p i f s m l j q F :
  (pi = Some j -> i = j) ->
  hs h (joint a pi p i f ++ inner (f :: s :: m ++ [l]) ++ joint a (Some i) l j q ++ F) ->
  wp (unlink_range f l)
     (fun _ h' => exists v w, hs h' (joint a pi p j q ++ emptied a pi i j ++ loose f l v w ++ inner (f :: s :: m ++ [l]) ++ F)) (fun _ => False) h.
Proof.
  intros N1 H. rewrite inner_grp in *. generalize dependent (last m s). intros y H. unfold loose.
  assert (W : forall G, hs h (joint a pi p i f ++ joint a (Some i) l j q ++ [(NX f, PN s); (PR (PN s), PN l); (NX y, PN f); (PR (PN l), PN y)] ++ G) ->
    wp (unlink_range f l)
     (fun _ h' => exists v w, hs h' (joint a pi p j q ++ emptied a pi i j ++ loose f l v w ++ [(NX f, PN s); (PR (PN s), PN l); (NX y, PN f); (PR (PN l), PN y)] ++ G)) (fun _ => False) h).
  { clear H. intros G H. unfold loose. buckets; cbn [app] in H; unfold unlink_range, n_first_of_bucket, n_last_of_bucket; repeat hstep; do 2 eexists; done_cells. }
  eapply wp_conseq; [apply (W (dl s m ++ F)); eapply hs_perm; [|exact H]; permc| |easy]. cbn beta.
  intros _ h' (v & w & H'). exists v, w. eapply hs_perm; [|exact H']. unfold loose. permc.
Qed.

(** ** Reading *)
Definition Rd {A} (m : HM A) (r : A) (h : heap) : Prop := wp m (fun r' h' => r' = r /\ h' = h) (fun _ => False) h.

(** the last element [x] of a segment; [z]: its prior *)
Lemma u_after_last h i x j q F z :
  hs h (joint a (Some i) x j q ++ (PR (PN x), z) :: F) -> Rd (u_after x) q h.
Proof.
  intros H. unfold joint in H. cbn [same_bucket] in H. unfold Rd, u_after, u_last_of_bucket.
  destruct (i =? j); cbn [app] in H; repeat hstep; auto.
Qed.
Lemma u_after_local_last h i x j q F z :
  hs h (joint a (Some i) x j q ++ (PR (PN x), z) :: F) -> Rd (u_after_local x) (if i =? j then q else null) h.
Proof.
  intros H. unfold joint in H. cbn [same_bucket] in H. unfold Rd, u_after_local, u_last_of_bucket.
  destruct (i =? j); cbn [app] in H; repeat hstep; auto.
Qed.
Lemma n_after_last h i x j q F z :
  hs h (joint a (Some i) x j q ++ (PR (PN x), z) :: F) -> Rd (n_after x) q h.
Proof.
  intros H. unfold joint in H. cbn [same_bucket] in H. unfold Rd, n_after, n_after_or.
  destruct (i =? j); cbn [app] in H; repeat hstep; auto.
Qed.
Lemma n_after_local_last h i x j q F z :
  hs h (joint a (Some i) x j q ++ (PR (PN x), z) :: F) -> Rd (n_after_local x) (if i =? j then q else null) h.
Proof.
  intros H. unfold joint in H. cbn [same_bucket] in H. unfold Rd, n_after_local, n_after_or.
  destruct (i =? j); cbn [app] in H; repeat hstep; auto.
Qed.
(** an element linked to the next one in the ordinary way *)
Lemma n_after_plain h x y F e : hs h (plain x y ++ F) -> Rd (n_after_or e x) y h.
Proof. intros H. unfold plain in H. cbn [app] in H. unfold Rd, n_after_or. repeat hstep; auto. Qed.
(** first of a group *)
Lemma n_after_first h f s m l F z e : hs h (inner (f :: s :: m ++ [l]) ++ (PR (PN f), z) :: F) -> Rd (n_after_or e f) s h.
Proof.
  intros H. rewrite inner_grp in *. generalize dependent (last m s). intros y H. unfold Rd, n_after_or.
  reorder ([(NX f, PN s); (PR (PN s), PN l); (NX y, PN f); (PR (PN l), PN y); (PR (PN f), z)] ++ dl s m ++ F). cbn [app] in H.
  repeat hstep. auto.
Qed.
(** last but one of a group *)
Lemma n_after_penult h f s m l p u F e :
  let C := inner (f :: s :: m ++ [l]) ++ (PR (PN f), PN p) :: (NX p, u) :: F in
  hs h C -> lctx C p (last m s) -> Rd (n_after_or e (last m s)) l h.
Proof.
  intros C H (w & v & W1 & W2 & W3 & W4). subst C. rewrite inner_grp in *. generalize dependent (last m s).
  intros y H W1 W2 W3 W4. unfold Rd, n_after_or.
  assert (P : Permutation (((NX f, PN s) :: (PR (PN s), PN l) :: dl s m ++ [(NX y, PN f); (PR (PN l), PN y)]) ++ (PR (PN f), PN p) :: (NX p, u) :: F)
   ([(NX f, PN s); (PR (PN s), PN l); (NX y, PN f); (PR (PN l), PN y); (PR (PN f), PN p); (NX p, u)] ++ dl s m ++ F)) by permc.
  apply (hs_perm P) in H. apply (Permutation_in _ P) in W1, W2. clear P.
  cbn [app] in *.  repeat hstep. auto.
Qed.
Lemma n_next_one h i x j q F z :
  hs h (joint a (Some i) x j q ++ (PR (PN x), z) :: F) -> Rd (n_next_to_inspect x) (if i =? j then q else null) h.
Proof.
  intros H. unfold joint in H. cbn [same_bucket] in H. unfold Rd, n_next_to_inspect.
  destruct (i =? j); cbn [app] in H; repeat hstep; auto.
Qed.
Lemma n_next_grp h f s m l i j q z F :
  hs h (inner (f :: s :: m ++ [l]) ++ joint a (Some i) l j q ++ (PR (PN f), z) :: F) ->
  Rd (n_next_to_inspect f) (if i =? j then q else null) h.
Proof.
  intros H. rewrite inner_grp in *. generalize dependent (last m s). intros y H. unfold Rd, n_next_to_inspect.
  unfold joint in H. cbn [same_bucket] in H. destruct (i =? j).
  - reorder ([(NX f, PN s); (PR (PN s), PN l); (NX y, PN f); (PR (PN l), PN y); (PR (PN f), z); (NX l, PN q); (PR (PN q), PN l)] ++ dl s m ++ F).
    cbn [app] in H. repeat hstep; auto.
  - reorder ([(NX f, PN s); (PR (PN s), PN l); (NX y, PN f); (PR (PN l), PN y); (PR (PN f), z); (NX l, PB a j); (PR (PB a j), PN q); (PR (PN q), PN l)] ++ dl s m ++ F).
    cbn [app] in H. repeat hstep; auto.
Qed.
Lemma n_first_of_group_one h i x j q F z :
  hs h (joint a (Some i) x j q ++ (PR (PN x), z) :: F) -> Rd (n_first_of_group x) false h.
Proof.
  intros H. unfold joint in H. cbn [same_bucket] in H. unfold Rd, n_first_of_group.
  destruct (i =? j); cbn [app] in H; repeat hstep; auto.
Qed.
Lemma n_first_of_group_grp h f s m l F z : hs h (inner (f :: s :: m ++ [l]) ++ (PR (PN f), z) :: F) -> Rd (n_first_of_group f) true h.
Proof.
  intros H. rewrite inner_grp in *. generalize dependent (last m s). intros y H. unfold Rd, n_first_of_group.
  reorder ([(NX f, PN s); (PR (PN s), PN l); (NX y, PN f); (PR (PN l), PN y); (PR (PN f), z)] ++ dl s m ++ F). cbn [app] in H.
  repeat hstep; auto.
Qed.
(** the last element of the segment after a first one *)
Lemma last_by_first h f s m l F : hs h (inner (f :: s :: m ++ [l]) ++ F) -> Rd (b <- nxt f ;; pri b) l h.
Proof.
  intros H. rewrite inner_grp in *. unfold Rd.
  reorder ([(NX f, PN s); (PR (PN s), PN l)] ++ dl s m ++ [(NX (last m s), PN f); (PR (PN l), PN (last m s))] ++ F). cbn [app] in H.
  repeat hstep; auto.
Qed.
End Link.
