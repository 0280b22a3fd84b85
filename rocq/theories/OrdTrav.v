(** Traversal, putting an unlinked node back, deletion of all nodes. *)
From Verif Require Import Prelude OrdModel OrdTree OrdHeap OrdRot OrdIns OrdLink OrdExt OrdExt2 OrdExt3.
Set Implicit Arguments.

Lemma size_rights k t : size t + length (rights k) <= size (plug k t).
Proof.
  rewrite !size_inorder, inorder_plug, !app_length. lia.
Qed.

Section Trav.
Variable rk : bool.
Variable hd : node.
Variable hs : nat.
Notation tat := (tat hd hs).
Notation rsz := (rsz rk).
Notation szd := (szd rk).

Lemma tat_focus h t F l1 x l2 : tat h t F -> inorder t = l1 ++ x :: l2 ->
  exists k c n a b, t = plug k (T c n a x b) /\ l1 = lefts k ++ inorder a /\ l2 = inorder b ++ rights k.
Proof.
  intros W I. destruct (@focus t x) as (k & c & n & a & b & ->); [rewrite I, in_app_iff; cbn; auto|].
  exists k, c, n, a, b. split; auto.
  assert (ND := proj1 (tat_nodup_in W)). rewrite I in ND. rewrite inorder_plug in I. cbn [inorder] in I.
  rewrite <- app_assoc in I. cbn [app] in I. rewrite app_assoc in I. symmetry in I.
  exact (@nodup_split _ _ _ _ _ I ND).
Qed.

Lemma inc_up_spec k : forall fuel t F h,
  tat h (plug k t) F -> t <> E -> klen k + 2 < fuel ->
  wp (inc_up fuel (rootp t) (cpar hd k)) (fun r h' => r = List.hd hd (rights k) /\ h' = h) noexn h.
Proof.
  induction k as [|c n y r k IH|c n l y k IH]; intros fuel t F h W0 NE Fu;
    (destruct fuel as [|f]; [lia|]); cbn [inc_up cpar];
    destruct t as [|ct nt a x b]; try easy; cbn [rootp].
  - assert (W := W0). cbn [plug] in W. unfold OrdRot.tat, hcell in W. flat W. step1.
    destruct b as [|cb nb b1 xb b2].
    + cbn [inorder]. rewrite last_last, Nat.eqb_refl. step1.
      destruct f as [|f]; [cbn in Fu; lia|]. cbn [inc_up]. flat W. go. cbn [inorder].
      rewrite last_last, Nat.eqb_refl. auto.
    + assert (N : (x =? last (inorder (T ct nt a x (T cb nb b1 xb b2))) hd) = false).
      { apply Nat.eqb_neq. cbn [inorder]. destruct (tat_nodup_in W0) as (ND & _). cbn [plug inorder] in ND.
        rewrite last_app_ne by easy. change (x :: inorder b1 ++ xb :: inorder b2) with ([x] ++ (inorder b1 ++ xb :: inorder b2)).
        rewrite last_app_ne by (intros Q; apply app_eq_nil in Q; destruct Q; discriminate).
        apply NoDup_app_iff in ND. destruct ND as (_ & ND & _). apply NoDup_cons_iff in ND.
        intros Q. apply (proj1 ND). rewrite Q. apply last_In. intros P; apply app_eq_nil in P; destruct P; discriminate. }
      rewrite N. flat W. go. assert (N2 : xb <> hd) by neq. apply Nat.eqb_neq in N2. rewrite N2. auto.
  - assert (W := W0). apply tat_open in W. flat W. step1.
    ne_rootp N x y r. rewrite N. step1.
    assert (N2 : (rootp b =? y) = false).
    { apply Nat.eqb_neq. eapply ctx_disj; [exact W0| |].
      - destruct (rootp_in b) as [Q|Q]; [left; exact Q|]. right. cbn. rewrite in_app_iff. cbn. auto.
      - cbn. rewrite in_app_iff. cbn. auto. }
    rewrite N2. apply wp_ret. auto.
  - assert (W := W0). apply tat_open in W. flat W. step1. rewrite Nat.eqb_refl. step1.
    eapply wp_conseq; [apply (IH f (T c n l y (T ct nt a x b)) F h); auto; [easy|cbn in Fu; lia]| |auto].
    intros ? ? (-> & ->). auto.
Qed.

Lemma increment_spec fuel t F h l1 x l2 :
  tat h t F -> inorder t = l1 ++ x :: l2 -> size t + 1 < fuel ->
  wp (increment fuel x) (fun r h' => r = List.hd hd l2 /\ h' = h) noexn h.
Proof.
  intros W I Fu. destruct (tat_focus _ _ _ W I) as (k & c & n & a & b & -> & -> & ->).
  assert (KL := klen_size k (T c n a x b)). cbn [size] in KL.
  assert (W0 := W). apply tat_open in W. unfold increment.
  destruct b as [|cb nb b1 xb b2].
  - flat W. go. cbn [inorder app].
    eapply wp_conseq; [apply (@inc_up_spec k fuel (T c n a x E) F h)| |auto]; auto; [easy|cbn in KL; lia].
  - flat W. step1. eqb_tac. cbn [negb].
    eapply wp_conseq; [eapply (@minimum_spec (T cb nb b1 xb b2)) with (p := x); [exact W|csub|easy|cbn in *; lia]| |auto].
    intros ? ? (-> & ->). split; auto. symmetry. apply hd_app_ne. now apply inorder_ne.
Qed.

Lemma dec_up_spec k : forall fuel t F h,
  tat h (plug k t) F -> t <> E -> lefts k <> [] -> klen k < fuel ->
  wp (dec_up fuel (rootp t) (cpar hd k)) (fun r h' => r = last (lefts k) hd /\ h' = h) noexn h.
Proof.
  induction k as [|c n y r k IH|c n l y k IH]; intros fuel t F h W0 NE NL Fu;
    (destruct fuel as [|f]; [lia|]); cbn [dec_up cpar];
    destruct t as [|ct nt a x b]; try easy; cbn [rootp].
  - assert (W := W0). apply tat_open in W. flat W. step1. rewrite Nat.eqb_refl. step1.
    eapply wp_conseq; [apply (IH f (T c n (T ct nt a x b) y r) F h); auto; [easy|cbn in Fu; lia]| |auto].
    intros ? ? (-> & ->). auto.
  - assert (W := W0). apply tat_open in W. flat W. step1. ne_rootp N x y l. rewrite N.
    apply wp_ret. cbn [lefts]. rewrite app_assoc, last_last. auto.
Qed.

(** the test for the header *)
Lemma is_header_node k c n a x b F h :
  tat h (plug k (T c n a x b)) F -> colr (plug k (T c n a x b)) = Black ->
  wp (is_header x) (fun r h' => r = false /\ h' = h) noexn h.
Proof.
  intros W0 CB. assert (W := W0). apply tat_open in W. unfold is_header. flat W. step1.
  destruct c; cbn [is_red]; [|apply wp_ret; auto].
  destruct k as [|ck nk y r k|ck nk l y k]; cbn [cpar].
  - discriminate.
  - flat W. step1. step1.
    assert (N : (cpar hd k =? x) = false).
    { apply Nat.eqb_neq. intros Q. 
      destruct k as [|c2 n2 y2 r2 k|c2 n2 l2 y2 k]; cbn [cpar] in Q; subst.
      - apply (proj1 (proj2 (tat_nodup_in W0))). cbn. rewrite !in_app_iff. cbn. auto.
      - flat W. revert W. clear. intros [N _]. cbn in N. repeat rewrite map_app in N; cbn in N.
        apply NoDup_cons_iff in N. destruct N as (_ & N). apply NoDup_cons_iff in N. destruct N as (_ & N).
        apply NoDup_cons_iff in N. destruct N as (N & _). apply N.
        repeat (rewrite ?map_app, ?in_app_iff; cbn). auto 12.
      - flat W. revert W. clear. intros [N _]. cbn in N. repeat rewrite map_app in N; cbn in N.
        apply NoDup_cons_iff in N. destruct N as (_ & N). apply NoDup_cons_iff in N. destruct N as (_ & N).
        apply NoDup_cons_iff in N. destruct N as (N & _). apply N.
        repeat (rewrite ?map_app, ?in_app_iff; cbn). auto 12. }
    rewrite N. apply wp_ret. auto.
  - flat W. step1. step1.
    assert (N : (cpar hd k =? x) = false).
    { apply Nat.eqb_neq. intros Q. 
      destruct k as [|c2 n2 y2 r2 k|c2 n2 l2 y2 k]; cbn [cpar] in Q; subst.
      - apply (proj1 (proj2 (tat_nodup_in W0))). cbn. repeat (rewrite ?map_app, ?in_app_iff; cbn). auto 12.
      - flat W. revert W. clear. intros [N _]. cbn in N. repeat rewrite map_app in N; cbn in N.
        apply NoDup_cons_iff in N. destruct N as (_ & N). apply NoDup_cons_iff in N. destruct N as (_ & N).
        apply NoDup_cons_iff in N. destruct N as (N & _). apply N.
        repeat (rewrite ?map_app, ?in_app_iff; cbn). auto 12.
      - flat W. revert W. clear. intros [N _]. cbn in N. repeat rewrite map_app in N; cbn in N.
        apply NoDup_cons_iff in N. destruct N as (_ & N). apply NoDup_cons_iff in N. destruct N as (_ & N).
        apply NoDup_cons_iff in N. destruct N as (N & _). apply N.
        repeat (rewrite ?map_app, ?in_app_iff; cbn). auto 12. }
    rewrite N. apply wp_ret. auto.
Qed.

Lemma decrement_spec fuel t F h l1 x l2 :
  tat h t F -> colr t = Black -> inorder t = l1 ++ x :: l2 -> l1 <> [] -> size t < fuel ->
  wp (decrement fuel x) (fun r h' => r = last l1 hd /\ h' = h) noexn h.
Proof.
  intros W CB I NE Fu. destruct (tat_focus _ _ _ W I) as (k & c & n & a & b & -> & -> & ->).
  assert (KL := klen_size k (T c n a x b)). cbn [size] in KL.
  unfold decrement. eapply wp_frame_bind; [eapply is_header_node; eauto|].
  intros ? ? (-> & ->).
  assert (W0 := W). apply tat_open in W.
  destruct a as [|ca na a1 xa a2].
  - flat W. go. cbn [inorder] in *. rewrite app_nil_r in *.
    eapply wp_conseq; [apply (@dec_up_spec k fuel (T c n E x b) F h)| |auto]; auto; [easy|lia].
  - flat W. step1. eqb_tac. cbn [negb].
    eapply wp_conseq; [eapply (@maximum_spec (T ca na a1 xa a2)) with (p := x); [exact W|csub|easy|cbn in *; lia]| |auto].
    intros ? ? (-> & ->). split; auto. rewrite last_app_ne by (now apply inorder_ne).
    apply last_ne. now apply inorder_ne.
Qed.

Lemma decrement_end_spec fuel t F h :
  tat h t F -> t <> E ->
  wp (decrement fuel hd) (fun r h' => r = last (inorder t) hd /\ h' = h) noexn h.
Proof.
  intros W NE. destruct t as [|c n a x b]; [easy|].
  unfold decrement, is_header. unfold OrdRot.tat, hcell in W. flat W. go. cbn [is_red]. go. rewrite ?Nat.eqb_refl. go. auto.
Qed.

(** begin() and end() *)
Lemma leftmost_spec {B} t F h (k : node -> HM B) Q Ex :
  tat h t F -> wp (k (List.hd hd (inorder t))) Q Ex h -> wp (bind (gl hd) k) Q Ex h.
Proof. intros W K. unfold OrdRot.tat, hcell in W. flat W. step1. exact K. Qed.
Lemma root_spec {B} t F h (k : node -> HM B) Q Ex :
  tat h t F -> wp (k (rootp t)) Q Ex h -> wp (bind (gp hd) k) Q Ex h.
Proof. intros W K. unfold OrdRot.tat, hcell in W. flat W. step1. exact K. Qed.

(** ** restore *)
Lemma restore_spec fuel t F h l1 l2 x cx :
  tat h t ((x, cx) :: F) -> rbt rk t -> inorder t = l1 ++ l2 -> size t + 2 < fuel ->
  wp (restore rk hd fuel x (List.hd hd l2))
     (fun _ h' => exists t', tat h' t' F /\ inorder t' = l1 ++ x :: l2 /\ rbt rk t') noexn h.
Proof.
  intros W R I Fu. unfold restore. destruct l2 as [|p l2]; cbn [List.hd].
  - rewrite app_nil_r in I. eapply leftmost_spec; [exact W|].
    destruct t as [|c n a y b].
    + cbn [inorder List.hd]. rewrite Nat.eqb_refl, orb_true_r.
      cbn in I. subst l1.
      eapply wp_conseq; [eapply (@link_spec rk hd hs fuel Top x cx F h W R)| |auto]; [cbn; lia|].
      intros u h' (t' & A & B & C). exists t'. auto.
    + set (t := T c n a y b) in *. assert (NE : t <> E) by easy.
      assert (HN : (List.hd hd (inorder t) =? null) = false /\ (List.hd hd (inorder t) =? hd) = false).
      { destruct (tat_nodup_in W) as (_ & N1 & N2).
        assert (In (List.hd hd (inorder t)) (inorder t)).
        { destruct (inorder t) eqn:Q; [exfalso; exact (inorder_ne NE Q)|now left]. }
        rewrite !Nat.eqb_neq. split; intros Q; rewrite Q in H; auto. }
      destruct HN as (-> & ->). cbn [orb].
      eapply wp_frame_bind; [apply (decrement_end_spec fuel W NE)|]. intros ? ? (-> & ->).
      destruct (max_focus _ NE) as (k & c' & n' & l & q & Et & RP). rewrite Et in *.
      assert (Iq : inorder (plug k (T c' n' l q E)) = lefts k ++ inorder l ++ [q]).
      { rewrite inorder_plug, (right_path_rights _ RP). cbn. now rewrite app_nil_r. }
      rewrite Iq, app_assoc, last_last.
      eapply wp_conseq; [eapply (@link_spec rk hd hs fuel (CR c' n' l q k) x cx F h W R)| |auto].
      * assert (KL := klen_size k (T c' n' l q E)). cbn in *. lia.
      * intros u h' (t' & A & B & C). exists t'. splits; auto. rewrite B. cbn [lefts rights].
        rewrite (right_path_rights _ RP), <- I, Iq. reflexivity.
  - destruct (tat_focus _ _ _ W I) as (k & c & n & a & b & -> & -> & ->).
    assert (KL := klen_size k (T c n a p b)). cbn [size] in KL.
    assert (W0 := W). apply tat_open in W. flat W. step1. clear W.
    destruct a as [|ca na a1 xa a2].
    + cbn [rootp]. cbn [inorder] in *. rewrite app_nil_r.
      change (null =? null) with true. cbn [orb].
      eapply wp_conseq; [eapply (@link_spec rk hd hs fuel (CL c n p b k) x cx F h W0 R)| |auto].
      * cbn in *. lia.
      * intros u h' (t' & A & B & C). exists t'. splits; auto.
    + cbn [rootp].
      assert (HN : (xa =? null) = false /\ (xa =? hd) = false).
      { destruct (tat_nodup_in W0) as (_ & N1 & N2). rewrite inorder_plug in *. cbn [inorder] in *.
        rewrite !Nat.eqb_neq. split; intros ->; [apply N2|apply N1]; rewrite !in_app_iff; cbn; rewrite ?in_app_iff; cbn; auto 8. }
      destruct HN as (-> & ->). cbn [orb].
      set (a := T ca na a1 xa a2) in *. assert (NE : a <> E) by easy.
      eapply wp_frame_bind.
      { eapply decrement_spec with (fuel := fuel) (1 := W0) (l1 := lefts k ++ inorder a) (l2 := inorder b ++ rights k).
        - apply R.
        - exact I.
        - intros Q. apply app_eq_nil in Q. now apply (inorder_ne NE).
        - lia. }
      intros ? ? (-> & ->).
      destruct (max_focus _ NE) as (ka & c' & n' & l & q & Ea & RP). rewrite Ea in *.
      assert (Iq : inorder (plug ka (T c' n' l q E)) = lefts ka ++ inorder l ++ [q]).
      { rewrite inorder_plug, (right_path_rights _ RP). cbn. now rewrite app_nil_r. }
      rewrite Iq, !app_assoc, last_last.
      assert (EK : forall s, plug k (T c n (plug ka s) p b) = plug (kapp ka (CL c n p b k)) s)
        by (intros s; now rewrite plug_kapp).
      rewrite EK in W0, R.
      assert (KA := klen_size ka (T c' n' l q E)). cbn [size] in KA.
      eapply wp_conseq; [eapply (@link_spec rk hd hs fuel (CR c' n' l q (kapp ka (CL c n p b k))) x cx F h W0 R)| |auto].
      * cbn [klen]. rewrite klen_kapp. cbn [klen]. lia.
      * intros u h' (t' & A & B & C). exists t'. splits; auto. rewrite B. cbn [lefts rights].
        rewrite lefts_kapp, rights_kapp, (right_path_rights _ RP). cbn [lefts rights app].
        rewrite <- !app_assoc. reflexivity.
Qed.
End Trav.
