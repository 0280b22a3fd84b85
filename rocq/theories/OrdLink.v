(** Linking a node in the red-black tree. *)
From Verif Require Import Prelude OrdModel OrdTree OrdHeap OrdRot OrdIns.
Set Implicit Arguments.

Lemma fst_cells p t : Permutation (map fst (cells p t)) (inorder t).
Proof.
  revert p. induction t as [|c n l IHl x r IHr]; intros p; cbn; [constructor|].
  rewrite map_app, IHl, IHr. apply Permutation_middle.
Qed.

Section Link.
Variable rk : bool.
Variable hd : node.
Variable hs : nat.
Notation tat := (tat hd hs).
Notation rsz := (rsz rk).
Notation szd := (szd rk).
Ltac close t0 := lazymatch goal with W : wfc _ _ |- OrdRot.tat _ _ _ (plug ?k _) _ =>
  eapply (@tat_close hd hs _ k _ _ t0 _ W); [inord|cperm] end.

Lemma tat_nodup h t F : tat h t F -> NoDup (null :: hd :: inorder t ++ map fst F).
Proof.
  intros [N _]. cbn in N. rewrite map_app in N. eapply NoDup_perm; [|exact N].
  now rewrite fst_cells.
Qed.
Lemma tat_nodup_in h t F : tat h t F -> NoDup (inorder t) /\ ~ In hd (inorder t) /\ ~ In null (inorder t).
Proof.
  intros W. apply tat_nodup in W. apply NoDup_cons_iff in W. destruct W as [W0 W].
  apply NoDup_cons_iff in W. destruct W as [W1 W]. apply NoDup_app_iff in W.
  cbn in W0. rewrite in_app_iff in *. tauto.
Qed.

(** the trees [t] whose header has another first/last: used between the update of the
    header and the update of the tree *)
Lemma root_black h t F : tat h t F -> t <> E ->
  wp (root <- gp hd ;; sc root Black) (fun _ h' => tat h' (recol Black t) F) noexn h.
Proof.
  intros W H. destruct t as [|c n l x r]; [easy|].
  unfold OrdRot.tat in W. flat W. unfold hcell in W. cbn [rootp] in W. go.
  cbn [recol]. unfold OrdRot.tat, hcell. cbn [inorder rootp cells] in *.
  eapply wfc_perm; [exact W|]. cperm.
Qed.

Lemma rebalance_spec fuel k c0 n a x b F h m j :
  tat h (plug k (T c0 n a x b)) F ->
  norr (T Red n a x b) -> krr k -> kblack k -> bh (T Red n a x b) j -> kbh k j m ->
  szd (plug k (T c0 n a x b)) -> klen k + 1 < fuel ->
  wp (rebalance rk hd fuel x)
     (fun _ h' => exists t', tat h' t' F /\ inorder t' = inorder (plug k (T Red n a x b)) /\ rbt rk t')
     noexn h.
Proof.
  intros W NR KR KB B KH SZ Fu. unfold rebalance. apply tat_open in W. flat W. go.
  assert (W1 : tat h (plug k (T Red n a x b)) F) by close (plug k (T c0 n a x b)).
  clear W. rename W1 into W.
  eapply wp_frame_bind.
  { eapply reb_loop_spec; eauto. revert SZ. apply szd_ext; cbn; tauto. }
  clear W. intros u h1 (t' & W & I & N & Bh & S).
  assert (NE : t' <> E).
  { intros ->. cbn in I. rewrite inorder_plug in I. cbn in I.
    apply (f_equal (@length _)) in I. rewrite !app_length in I. cbn in I. lia. }
  eapply wp_conseq; [apply (root_black W NE)| |auto].
  intros ? h2 W2. cbv beta in W2. exists (recol Black t'). splits; auto.
  - now rewrite inorder_recol.
  - unfold rbt. splits.
    + now apply norr_black.
    + eapply bh_black_any; eauto.
    + apply colr_black.
    + intros R. now apply sized_recol, S.
Qed.

(** ** Rank bookkeeping *)
Lemma add_loop_spec k : forall fuel t F h,
  tat h (plug k t) F -> t <> E -> klen k < fuel ->
  wp (add_loop fuel (rootp t) (kroot k (rootp t)))
     (fun _ h' => tat h' (plug (kinc true k) t) F) noexn h.
Proof.
  induction k as [|c n y r k IH|c n l y k IH]; intros fuel t F h W0 NE Fu;
    (destruct fuel as [|f]; [cbn in Fu; lia|]); cbn [add_loop];
    destruct t as [|c' n' a x b]; try easy; cbn [rootp]; assert (W := W0); apply tat_open in W; flat W.
  - cbn [kroot]. go. exact W0.
  - ne_kroot N x hd (CL c n y r k) x. cbn [kroot]. rewrite N. go.
    assert (W1 : tat h (plug k (T c (S n) (T c' n' a x b) y r)) F)
      by close (plug k (T c n (T c' n' a x b) y r)).
    clear W. eapply wp_conseq; [apply (IH f _ _ _ W1)|intros u h1 W2; exact W2|auto]; [easy|cbn in Fu; lia].
  - ne_kroot N x hd (CR c n l y k) x. cbn [kroot]. rewrite N. go.
    assert (W1 : tat h (plug k (T c (S n) l y (T c' n' a x b))) F)
      by close (plug k (T c n l y (T c' n' a x b))).
    clear W. eapply wp_conseq; [apply (IH f _ _ _ W1)|intros u h1 W2; exact W2|auto]; [easy|cbn in Fu; lia].
Qed.

Lemma remove_loop_spec k : forall fuel t F h,
  tat h (plug k t) F -> t <> E -> klen k < fuel ->
  wp (remove_loop fuel (rootp t) (kroot k (rootp t)))
     (fun _ h' => tat h' (plug (kdec true k) t) F) noexn h.
Proof.
  induction k as [|c n y r k IH|c n l y k IH]; intros fuel t F h W0 NE Fu;
    (destruct fuel as [|f]; [cbn in Fu; lia|]); cbn [remove_loop];
    destruct t as [|c' n' a x b]; try easy; cbn [rootp]; assert (W := W0); apply tat_open in W; flat W.
  - cbn [kroot]. go. exact W0.
  - ne_kroot N x hd (CL c n y r k) x. cbn [kroot]. rewrite N. go.
    assert (W1 : tat h (plug k (T c (n - 1) (T c' n' a x b) y r)) F)
      by close (plug k (T c n (T c' n' a x b) y r)).
    clear W. eapply wp_conseq; [apply (IH f _ _ _ W1)|intros u h1 W2; exact W2|auto]; [easy|cbn in Fu; lia].
  - ne_kroot N x hd (CR c n l y k) x. cbn [kroot]. rewrite N. go.
    assert (W1 : tat h (plug k (T c (n - 1) l y (T c' n' a x b))) F)
      by close (plug k (T c n l y (T c' n' a x b))).
    clear W. eapply wp_conseq; [apply (IH f _ _ _ W1)|intros u h1 W2; exact W2|auto]; [easy|cbn in Fu; lia].
Qed.

Lemma kinc_false k : kinc false k = k.
Proof. induction k; cbn; congruence. Qed.
Lemma kdec_false k : kdec false k = k.
Proof. induction k; cbn; congruence. Qed.

Lemma rank_remove_spec k fuel t F h :
  tat h (plug k t) F -> t <> E -> klen k < fuel ->
  wp (rank_remove rk fuel (rootp t) (kroot k (rootp t)))
     (fun _ h' => tat h' (plug (kdec rk k) t) F) noexn h.
Proof.
  intros W NE Fu. unfold rank_remove. destruct rk.
  - now apply remove_loop_spec.
  - rewrite kdec_false. now apply wp_ret.
Qed.

Lemma rank_add_spec k fuel c n x F h :
  tat h (plug k (T c n E x E)) F -> klen k < fuel ->
  wp (rank_add rk fuel x (kroot k x))
     (fun _ h' => tat h' (plug (kinc rk k) (T c (rsz 1 n) E x E)) F) noexn h.
Proof.
  intros W Fu. unfold rank_add, OrdRot.rsz. destruct rk.
  - apply tat_open in W. flat W. go.
    assert (W1 : tat h (plug k (T c 1 E x E)) F) by close (plug k (T c n E x E)).
    clear W. now apply (add_loop_spec k (t := T c 1 E x E) W1).
  - rewrite kinc_false. now apply wp_ret.
Qed.

(** ** Linking *)
(** the side on which the hole of a context is under its parent *)
Definition kside (k : ctx) : side := match k with CR _ _ _ _ _ => to_right | _ => to_left end.

Lemma hd_lefts (d : node) k q : lefts k <> [] -> List.hd d (lefts k ++ q) = List.hd d (lefts k).
Proof. destruct (lefts k); easy. Qed.
Lemma last_app_ne (d : node) l q : q <> [] -> last (l ++ q) d = last q d.
Proof.
  intros H. induction l as [|a l IH]; [easy|]. cbn [app]. rewrite <- IH.
  destruct (l ++ q) eqn:Q; [apply app_eq_nil in Q; tauto|reflexivity].
Qed.
Lemma last_In (d : node) l : l <> [] -> In (last l d) l.
Proof.
  induction l as [|a l IH]; [easy|]. intros _. destruct l; [now left|].
  right. apply IH. easy.
Qed.

Lemma link_spec fuel k x cx F h :
  tat h (plug k E) ((x, cx) :: F) -> rbt rk (plug k E) -> klen k + 1 < fuel ->
  wp (link rk hd fuel x (kside k) (cpar hd k))
     (fun _ h' => exists t', tat h' t' F /\ inorder t' = lefts k ++ x :: rights k /\ rbt rk t')
     noexn h.
Proof.
  intros W (NR & (m & B) & CB & SZ) Fu.
  assert (ND := tat_nodup_in W). rewrite inorder_plug in ND. cbn [inorder app] in ND.
  unfold link. eapply wp_frame_bind with
    (Q' := fun _ h' => wfc h' ((hd, mk (List.hd hd (lefts k ++ x :: rights k))
              (last (lefts k ++ x :: rights k) hd) (kroot k x) Red hs)
              :: (x, cx) :: ccells hd k x ++ F)).
  { apply tat_open in W. rewrite inorder_plug in W. destruct cx as [xl xr xpp xc xs].
    cbn [inorder app rootp cells] in W.
    destruct k as [|c n y r k|c n l y k]; cbn [kside cpar].
    - flat W. cbn [lefts rights] in *. go. eapply wfc_perm; [exact W|]. cbn [List.hd app last kroot ccells]. cperm.
    - flat W. cbn [lefts rights] in *. go. cbn [List.hd app] in W.
      destruct (lefts k) as [|z ll] eqn:Lk.
      + cbn [app List.hd] in *. rewrite Nat.eqb_refl. go.
        eapply wfc_perm; [exact W|].
        replace (last (x :: y :: inorder r ++ rights k) hd) with (last (y :: inorder r ++ rights k) hd)
          by reflexivity. cperm.
      + cbn [app List.hd] in *.
        assert (Hz : (y =? z) = false).
        { apply Nat.eqb_neq. intros ->. destruct ND as (ND & _). apply NoDup_cons_iff in ND.
          apply (proj1 ND). rewrite in_app_iff. right. now left. }
        rewrite Hz. go. eapply wfc_perm; [exact W|].
        replace (last (z :: ll ++ x :: y :: inorder r ++ rights k) hd)
          with (last (y :: inorder r ++ rights k) hd).
        2:{ symmetry. change (last ((z :: ll) ++ [x] ++ (y :: inorder r ++ rights k)) hd = last (y :: inorder r ++ rights k) hd).
            rewrite app_assoc. apply last_app_ne. easy. }
        replace (last (z :: ll ++ y :: inorder r ++ rights k) hd) with (last (y :: inorder r ++ rights k) hd).
        2:{ symmetry. change (last ((z :: ll) ++ (y :: inorder r ++ rights k)) hd = last (y :: inorder r ++ rights k) hd).
            apply last_app_ne. easy. }
        cperm.
    - flat W. cbn [lefts rights] in *. step1. step1.
      assert (Hd : forall q : list node, List.hd hd (((lefts k ++ inorder l ++ [y])) ++ q) = List.hd hd (lefts k ++ inorder l ++ [y])).
      { intros q. destruct (lefts k ++ inorder l ++ [y]) eqn:Q; [|reflexivity].
        apply (f_equal (@length _)) in Q. rewrite !app_length in Q. cbn in Q. lia. }
      rewrite (Hd (x :: rights k)). rewrite (Hd (rights k)) in W.
      destruct (rights k) as [|z rr] eqn:Rk.
      + rewrite app_nil_r, !app_assoc, last_last in *. rewrite Nat.eqb_refl. go. rewrite last_last.
        eapply wfc_perm; [exact W|]. cperm.
      + rewrite last_app_ne in * by easy.
        assert (Hz : (y =? last (z :: rr) hd) = false).
        { apply Nat.eqb_neq. intros Hy. destruct ND as (ND & _).
          apply NoDup_app_iff in ND. destruct ND as (_ & _ & ND).
          apply (ND y). rewrite !in_app_iff. cbn; auto.
          rewrite Hy. apply last_In. easy. }
        rewrite Hz. go. rewrite last_app_ne by easy.
        change (last (x :: z :: rr) hd) with (last (z :: rr) hd).
        eapply wfc_perm; [exact W|]. cperm. }
  clear W ND. intros u h1 W. cbv beta in W. destruct cx as [xl xr xpp xc xs]. flat W. go.
  assert (W1 : tat h0 (plug k (T xc xs E x E)) F).
  { unfold OrdRot.tat, hcell. rewrite inorder_plug, rootp_plug. cbn [inorder app rootp].
    eapply wfc_perm; [exact W|]. cperm. }
  clear W. eapply wp_frame_bind; [apply (rank_add_spec _ _ _ _ W1 (fuel := fuel)); lia|].
  clear W1. intros u1 h2 W. cbv beta in W.
  rewrite norr_plug in NR. destruct NR as (_ & KR & _). rewrite bh_plug in B. destruct B as (j & B & KH).
  inversion B; subst.
  eapply wp_conseq; [eapply rebalance_spec with (j := 0) (m := m); [exact W| | | | | | |]| |auto].
  - cbn. tauto.
  - now apply kinc_krr.
  - apply kinc_kblack. destruct k; [cbn; auto| |]; eapply colr_plug; eauto; easy.
  - repeat constructor.
  - now apply kinc_kbh.
  - intros R. specialize (SZ R). rewrite sized_plug in *. cbn in *. unfold OrdRot.rsz. rewrite R.
    splits; auto. apply kinc_ksized; tauto.
  - rewrite kinc_klen. lia.
  - intros u2 h3 (t' & A & I & R). exists t'. splits; auto. rewrite I, inorder_plug. cbn.
    now rewrite kinc_lefts, kinc_rights.
Qed.
End Link.
