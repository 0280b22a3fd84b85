(** Extraction from the red-black tree: choice of the spliced node, relinking, the whole. *)
From Verif Require Import Prelude OrdModel OrdTree OrdHeap OrdRot OrdIns OrdLink OrdExt OrdExt2.
Set Implicit Arguments.

Section Ext.
Variable rk : bool.
Variable hd : node.
Variable hs : nat.
Notation tat := (tat hd hs).
Notation rsz := (rsz rk).
Notation szd := (szd rk).
Ltac close t0 := lazymatch goal with W : wfc _ _ |- OrdRot.tat _ _ _ (plug ?k _) _ =>
  eapply (@tat_close hd hs _ k _ _ t0 _ W); [inord|cperm] end.
Ltac retat t1 F t0 := lazymatch goal with W : wfc ?h _ |- _ =>
  let W1 := fresh "W" in assert (W1 : tat h t1 F) by close t0; clear W; rename W1 into W end.
Ltac nob P0 t0 := lazymatch goal with W : wfc _ _ |- _ =>
  eapply (@wp_null_or_black _ _ _ P0 t0); [exact W|csub|] end.
Ltac blk p t := lazymatch goal with W : wfc ?h ?L |- wp (bind (blacken _) _) _ _ ?h =>
    let R := pulla (cells p t) L in
    eapply (@wp_blacken _ h L p t R _ _ _ W);
    [cperm|clear dependent h; let h' := fresh "h" in intros h' W; cbn [recol] in W; flat W] end.


Lemma minimum_spec t : forall fuel p h L,
  wfc h L -> (forall q, ccount (cells p t) q <= ccount L q) -> t <> E -> size t <= fuel ->
  wp (minimum fuel (rootp t)) (fun r h' => r = List.hd null (inorder t) /\ h' = h) noexn h.
Proof.
  induction t as [|c n l IH x r _]; intros fuel p h L W S NE Fu; [easy|].
  destruct fuel as [|f]; [cbn in Fu; lia|]. cbn [minimum rootp].
  destruct (wfc_sub _ W S) as (L' & W'). clear W S. rename W' into W. flat W. step1.
  destruct l as [|c' n' l' y r'].
  - cbn [rootp]. cbn. auto.
  - flat W. cbn [rootp] in *. eqb_tac.
    eapply wp_conseq; [apply (IH f x h _ W)| |auto]; [csub|easy|cbn in *; lia|].
    intros a h' (-> & ->). split; auto. cbn [inorder].
    destruct (inorder l') as [|u v]; reflexivity.
Qed.
Lemma maximum_spec t : forall fuel p h L,
  wfc h L -> (forall q, ccount (cells p t) q <= ccount L q) -> t <> E -> size t <= fuel ->
  wp (maximum fuel (rootp t)) (fun r h' => r = last (inorder t) null /\ h' = h) noexn h.
Proof.
  induction t as [|c n l _ x r IH]; intros fuel p h L W S NE Fu; [easy|].
  destruct fuel as [|f]; [cbn in Fu; lia|]. cbn [maximum rootp].
  destruct (wfc_sub _ W S) as (L' & W'). clear W S. rename W' into W. flat W. step1.
  destruct r as [|c' n' l' y r'].
  - cbn [rootp]. cbn [inorder]. cbn. rewrite last_last. auto.
  - flat W. cbn [rootp] in *. eqb_tac.
    eapply wp_conseq; [apply (IH f x h _ W)| |auto]; [csub|easy|cbn in *; lia|].
    intros a h' (-> & ->). split; auto. cbn [inorder].
    rewrite (last_app_ne null (inorder l)) by easy.
    cbn [last]. destruct (inorder l' ++ y :: inorder r') eqn:Q; [|reflexivity].
    apply app_eq_nil in Q. destruct Q; discriminate.
Qed.

(** if(x!=pointer(0))x->parent()=z->parent() *)
Lemma wp_xparent {B} h L p t F z cz (k : unit -> HM B) Q Ex :
  wfc h L -> Permutation L ((z, cz) :: cells p t ++ F) ->
  (forall h', wfc h' ((z, cz) :: cells (cp cz) t ++ F) -> wp (k tt) Q Ex h') ->
  wp (bind (if rootp t =? null then ret tt else zp <- gp z ;; sp (rootp t) zp) k) Q Ex h.
Proof.
  intros W P K. apply (fun a => wfc_perm a P) in W.
  destruct t as [|c n l x r]; cbn [rootp].
  - cbn. apply wp_bind, wp_ret, K. exact W.
  - flat W. go. apply K. eapply wfc_perm; [exact W|]. cperm.
Qed.


(** the parent of the hole of a leftmost (rightmost) path is the next (previous) node *)
Lemma cpar_left k : lefts k = [] -> cpar hd k = List.hd hd (rights k).
Proof.
  intros H. apply lefts_nil in H. destruct k; cbn; auto. easy.
Qed.
Lemma cpar_right k : rights k = [] -> cpar hd k = last (lefts k) hd.
Proof.
  intros H. apply rights_nil in H. destruct k; cbn; auto; [easy|].
  rewrite app_assoc, last_last. reflexivity.
Qed.
Lemma hd_app (d : node) l q : List.hd d (l ++ q) = match l with [] => List.hd d q | z :: _ => z end.
Proof. now destruct l. Qed.
Lemma hd_app_ne (d d' : node) l q : l <> [] -> List.hd d (l ++ q) = List.hd d' l.
Proof. now destruct l. Qed.
Lemma last_ne (d d' : node) l : l <> [] -> last l d = last l d'.
Proof.
  induction l as [|a l IH]; [easy|]. intros _. destruct l; [reflexivity|]. apply IH. easy.
Qed.
Lemma inorder_ne t : t <> E -> inorder t <> [].
Proof. destruct t; [easy|]. cbn. intros _ H. apply app_eq_nil in H. destruct H; discriminate. Qed.
Lemma last_app (d : node) l q : last (l ++ q) d = match q with [] => last l d | _ => last q d end.
Proof. destruct q; [now rewrite app_nil_r|]. now apply last_app_ne. Qed.

(** Unlinking a node with at most one child. *)
Lemma ext_splice1_spec fuel k c n a z b t1 F h :
  tat h (plug k (T c n a z b)) F -> (a = E /\ t1 = b \/ b = E /\ t1 = a) ->
  size t1 <= fuel ->
  wp (ext_splice1 hd fuel z (rootp t1))
     (fun r h' => r = cpar hd k /\ exists cz, cc cz = c /\ tat h' (plug k t1) ((z, cz) :: F)) noexn h.
Proof.
  intros W CH Fu. assert (W0 := W).
  assert (ND := tat_nodup_in W). rewrite inorder_plug in ND.
  apply tat_open in W. rewrite inorder_plug in W.
  assert (I1 : inorder t1 = inorder a ++ inorder b).
  { destruct CH as [[-> ->]|[-> ->]]; cbn; auto. now rewrite app_nil_r. }
  unfold ext_splice1. flat W. go.
  assert (W1 : wfc h ((z, mk (rootp a) (rootp b) (cpar hd k) c n) :: cells z t1 ++
     (hd, mk (List.hd hd (lefts k ++ inorder (T c n a z b) ++ rights k))
             (last (lefts k ++ inorder (T c n a z b) ++ rights k) hd) (kroot k z) Red hs) ::
      ccells hd k z ++ F)).
  { eapply wfc_perm; [exact W|]. destruct CH as [[-> ->]|[-> ->]]; cperm. }
  clear W. rename W1 into W.
  eapply wp_xparent; [exact W|reflexivity|]. clear W. intros h1 W. cbn [cp] in W.
  set (l := List.hd hd (lefts k ++ inorder (T c n a z b) ++ rights k)) in *.
  set (r := last (lefts k ++ inorder (T c n a z b) ++ rights k) hd) in *.
  eapply wp_frame_bind.
  { apply relink_c with (k := k) (y := rootp t1) (l := l) (r := r) (hs := hs)
      (cx := mk (rootp a) (rootp b) (cpar hd k) c n) (F := cells (cpar hd k) t1 ++ F); [|reflexivity].
    eapply wfc_perm; [exact W|]. cperm. }
  clear W. intros u h2 W. cbv beta in W.
  (* leftmost *)
  assert (NZ : forall v, In v (lefts k ++ inorder a ++ inorder b ++ rights k) -> v <> z).
  { intros v Iv ->. destruct ND as (ND & _ & _). cbn [inorder] in ND.
    assert (P : Permutation (lefts k ++ (inorder a ++ z :: inorder b) ++ rights k)
                            (z :: lefts k ++ inorder a ++ inorder b ++ rights k)).
    { rewrite <- app_assoc. cbn [app]. rewrite (app_assoc (lefts k) (inorder a) (z :: _)),
        (app_assoc (lefts k) (inorder a) (inorder b ++ rights k)). symmetry. apply Permutation_middle. }
    apply (NoDup_perm P), NoDup_cons_iff in ND. tauto. }
  eapply wp_frame_bind with (Q' := fun v h' => v = l /\ h' = h2); [flat W; apply wp_bindr; go; auto|].
  intros ? ? (-> & ->).
  eapply wp_frame_bind with (Q' := fun _ h' => wfc h'
    ((hd, mk (List.hd hd (lefts k ++ inorder t1 ++ rights k)) r (kroot k (rootp t1)) Red hs)
     :: (z, mk (rootp a) (rootp b) (cpar hd k) c n) :: ccells hd k (rootp t1) ++ cells (cpar hd k) t1 ++ F)).
  { destruct (lefts k ++ inorder a) as [|v vs] eqn:LA.
    - apply app_eq_nil in LA. destruct LA as (Lk & Ia).
      assert (a = E) by (destruct a; auto; exfalso; eapply inorder_ne; eauto; easy). subst a.
      assert (t1 = b) by (destruct CH as [[_ ->]|[-> ->]]; auto). subst t1.
      unfold l in *. rewrite Lk. cbn [inorder app List.hd] in *. rewrite Lk in *. cbn [app List.hd] in *.
      rewrite Nat.eqb_refl. destruct b as [|c' n' b1 y b2].
      + flat W. go. eapply wfc_perm; [exact W|]. cbn [inorder app]. rewrite <- (cpar_left k Lk). cperm.
      + flat W. go. clear I1. eapply wp_frame_bind.
        { eapply (@minimum_spec (T c' n' b1 y b2)) with (p := cpar hd k); [exact W|csub|easy|exact Fu]. }
        intros ? ? (-> & ->). go. eapply wfc_perm; [exact W|].
        rewrite (@hd_app_ne hd null) by (apply inorder_ne; easy). cperm.
    - assert (Hl : (l =? z) = false).
      { apply Nat.eqb_neq. unfold l. cbn [inorder]. rewrite <- app_assoc, app_assoc, LA. cbn.
        apply NZ. rewrite app_assoc, LA. now left. }
      rewrite Hl. apply wp_ret. eapply wfc_perm; [exact W|].
      replace (List.hd hd (lefts k ++ inorder t1 ++ rights k)) with l; [cperm|].
      unfold l. cbn [inorder]. rewrite I1. rewrite <- !app_assoc, !app_assoc, LA. reflexivity. }
  clear W. intros u1 h3 W. cbv beta in W. subst l.
  set (l := List.hd hd (lefts k ++ inorder t1 ++ rights k)) in *.
  eapply wp_frame_bind with (Q' := fun v h' => v = r /\ h' = h3); [flat W; apply wp_bindr; go; auto|].
  intros ? ? (-> & ->).
  eapply wp_frame_bind with (Q' := fun _ h' => wfc h'
    ((hd, mk l (last (lefts k ++ inorder t1 ++ rights k) hd) (kroot k (rootp t1)) Red hs)
     :: (z, mk (rootp a) (rootp b) (cpar hd k) c n) :: ccells hd k (rootp t1) ++ cells (cpar hd k) t1 ++ F)).
  { destruct (inorder b ++ rights k) as [|v vs] eqn:LB.
    - apply app_eq_nil in LB. destruct LB as (Ib & Rk).
      assert (b = E) by (destruct b; auto; exfalso; eapply inorder_ne; eauto; easy). subst b.
      assert (t1 = a) by (destruct CH as [[-> ->]|[_ ->]]; auto). subst t1.
      unfold r in *. cbn [inorder] in *. rewrite Rk in *. rewrite !app_nil_r, ?app_assoc, !last_last in *.
      rewrite Nat.eqb_refl. destruct a as [|c' n' a1 y a2].
      + flat W. go. eapply wfc_perm; [exact W|]. cbn [inorder app]. rewrite app_nil_r, <- (cpar_right k Rk). cperm.
      + flat W. go. clear I1. eapply wp_frame_bind.
        { eapply (@maximum_spec (T c' n' a1 y a2)) with (p := cpar hd k); [exact W|csub|easy|exact Fu]. }
        intros ? ? (-> & ->). go. eapply wfc_perm; [exact W|].
        rewrite last_app_ne by (apply inorder_ne; easy).
        rewrite (@last_ne hd null) by (apply inorder_ne; easy). cperm.
    - assert (Hl : (r =? z) = false).
      { apply Nat.eqb_neq. unfold r. cbn [inorder].
        rewrite <- app_assoc. cbn [app]. rewrite LB.
        rewrite app_assoc, last_app_ne by easy.
        change (last (v :: vs) hd <> z). apply NZ. rewrite app_assoc, in_app_iff. right.
        apply last_In. easy. }
      rewrite Hl. apply wp_ret. eapply wfc_perm; [exact W|].
      replace (last (lefts k ++ inorder t1 ++ rights k) hd) with r; [cperm|].
      unfold r. cbn [inorder]. rewrite I1. rewrite <- !app_assoc. cbn [app]. rewrite LB.
      rewrite (app_assoc _ (inorder a)), last_app_ne by easy.
      rewrite (app_assoc _ (inorder a)), last_app_ne by easy. reflexivity. }
  clear W. intros u2 h4 W. cbv beta in W. apply wp_ret. split; auto.
  exists (mk (rootp a) (rootp b) (cpar hd k) c n). split; [reflexivity|].
  unfold OrdRot.tat, hcell. rewrite inorder_plug, rootp_plug. fold l. eapply wfc_perm; [exact W|cperm].
Qed.

(** Replacing a node by its successor. *)
Lemma ext_splice2_spec k kb c n a z cy ny y yb F h :
  tat h (plug k (T c n a z (plug kb (T cy ny E y yb)))) F -> a <> E -> left_path kb ->
  wp (ext_splice2 rk hd z y (rootp yb))
     (fun r h' => r = cpar y kb /\ exists cz, cc cz = cy /\
        tat h' (plug k (T c (rsz n ny) a y (plug kb yb))) ((z, cz) :: F)) noexn h.
Proof.
  intros W NE LP. apply tat_open in W. rewrite inorder_plug in W. cbn [inorder] in W.
  rewrite inorder_plug in W. cbn [inorder app] in W. rewrite (left_path_lefts _ LP) in W. cbn [app] in W.
  assert (HD : List.hd hd (lefts k ++ (inorder a ++ z :: y :: inorder yb ++ rights kb) ++ rights k)
       = List.hd hd (lefts k ++ (inorder a ++ y :: inorder yb ++ rights kb) ++ rights k)).
  { rewrite <- !app_assoc, !app_assoc. rewrite <- !(app_assoc (lefts k ++ inorder a)).
    rewrite !(@hd_app_ne hd hd (lefts k ++ inorder a)); auto;
    intros Q; apply app_eq_nil in Q; now apply (inorder_ne NE). }
  assert (LA : last (lefts k ++ (inorder a ++ z :: y :: inorder yb ++ rights kb) ++ rights k) hd
       = last (lefts k ++ (inorder a ++ y :: inorder yb ++ rights kb) ++ rights k) hd).
  { rewrite <- !app_assoc, !app_assoc. cbn [app]. rewrite <- !(app_assoc (lefts k ++ inorder a)).
    rewrite (@last_app_ne hd (lefts k ++ inorder a) ((z :: _) ++ _)) by easy.
    rewrite (@last_app_ne hd (lefts k ++ inorder a) ((y :: _) ++ _)) by easy. reflexivity. }
  rewrite HD, LA in W. clear HD LA.
  set (l := List.hd _ _) in W. set (r := last _ _) in W.
  destruct a as [|ca na a1 za a2]; [easy|]. clear NE.
  assert (FINAL : forall h', wfc h' ((hd, mk l r (kroot k y) Red hs) :: ccells hd k y ++
      (y, mk za (kroot kb (rootp yb)) (cpar hd k) c (rsz n ny)) :: cells y (T ca na a1 za a2) ++
      cells y (plug kb yb) ++ (z, mk za (kroot kb y) (cpar hd k) cy n) :: F) ->
      exists cz, cc cz = cy /\
        tat h' (plug k (T c (rsz n ny) (T ca na a1 za a2) y (plug kb yb))) ((z, cz) :: F)).
  { intros h' W'. exists (mk za (kroot kb y) (cpar hd k) cy n). split; [reflexivity|].
    unfold OrdRot.tat, hcell. rewrite inorder_plug, rootp_plug.
    cbn [inorder rootp]. rewrite inorder_plug, (left_path_lefts _ LP). cbn [app]. cbn [inorder] in l, r.
    fold l r. eapply wfc_perm; [exact W'|]. rewrite <- (rootp_plug kb). cperm. }
  unfold ext_splice2. eapply wp_frame_bind with (Q' := fun _ h' => wfc h'
     ((hd, mk l r (kroot k z) Red hs) :: (z, mk za (kroot kb y) (cpar hd k) c n) ::
      (za, mk (rootp a1) (rootp a2) z ca na) :: cells za a1 ++ cells za a2 ++
      (y, mk null (rootp yb) (cpar z kb) cy (rsz n ny)) :: cells y yb ++ ccells z kb y ++
      ccells hd k z ++ F)).
  { unfold rank_copy, OrdRot.rsz. assert (W1 := W).
    eapply wfc_perm with (L' := (hd, mk l r (kroot k z) Red hs) :: (z, mk za (kroot kb y) (cpar hd k) c n) ::
      (za, mk (rootp a1) (rootp a2) z ca na) :: cells za a1 ++ cells za a2 ++
      (y, mk null (rootp yb) (cpar z kb) cy ny) :: cells y yb ++ ccells z kb y ++
      ccells hd k z ++ F) in W1.
    2:{ cbn [cells rootp]. rewrite (rootp_plug kb). cperm. }
    clear W. rename W1 into W. destruct rk.
    - go. eapply wfc_perm; [exact W|]. cperm.
    - apply wp_ret. exact W. }
  clear W. intros u h1 W. cbv beta in W. generalize dependent (rsz n ny). intros n1 FINAL W.
  go.
  eapply wp_frame_bind with (Q' := fun r0 h' => r0 = cpar y kb /\ wfc h'
     ((hd, mk l r (kroot k z) Red hs) :: (z, mk za (kroot kb y) (cpar hd k) c n) ::
      (za, mk (rootp a1) (rootp a2) y ca na) :: cells za a1 ++ cells za a2 ++
      (y, mk za (kroot kb (rootp yb)) (cpar z kb) cy n1) :: cells y (plug kb yb) ++
      ccells hd k z ++ F)).
  { destruct kb as [|c1 n2 p1 r1 kb|]; [| |easy].
    - cbn [kroot plug cpar] in *. flat W. go. split; auto. eapply wfc_perm; [exact W|]. cperm.
    - cbn [kroot plug cpar] in *. flat W.
      assert (Ny : (y =? kroot kb p1) = false).
      { destruct kb as [|c2 n3 p2 r2 kb|]; [apply Nat.eqb_neq; cbn [kroot]; neq| |easy].
        ne_kroot N y z (CL c2 n3 p2 r2 kb) p1. exact N. }
      rewrite Ny. cbn [negb]. go.
      eapply wp_xparent with (p := y) (t := yb) (z := y) (cz := mk za (rootp yb) p1 cy n1)
        (F := (za, mk (rootp a1) (rootp a2) y ca na) :: cells za a1 ++ cells za a2 ++
          (hd, mk l r (kroot k z) Red hs) :: (z, mk za (kroot kb p1) (cpar hd k) c n) ::
          (p1, mk y (rootp r1) (cpar z kb) c1 n2) :: cells p1 r1 ++ ccells z kb p1 ++ ccells hd k z ++ F);
        [exact W|cperm|].
      clear W. intros h2 W. cbn [cp] in W. flat W. go.
      pose (t2 := plug kb (T c1 n2 yb p1 r1)).
      assert (Rt : rootp t2 = kroot kb p1) by (unfold t2; now rewrite rootp_plug).
      rewrite <- Rt. 
      assert (NN : (rootp t2 =? null) = false).
      { apply Nat.eqb_neq. rewrite Rt. intros Q.
        destruct kb as [|c2 n3 p2 r2 kb|]; [cbn [kroot] in Q; revert Q; change (p1 <> null); neq| |easy].
        destruct (@kroot_ccells z (CL c2 n3 p2 r2 kb) p1) as (d & D); [easy|].
        refine (@wfc_nonnull _ _ _ d W _ Q).
        repeat (first [right; exact D | apply in_app_iff; left; exact D | apply in_app_iff; right | right]). }
      pose proof (@wp_reparent node h1 z y t2) as RP. rewrite NN in RP. cbn [negb] in RP.
      eapply RP with (F := (y, mk za (kroot kb p1) p1 cy n1) ::
          (za, mk (rootp a1) (rootp a2) y ca na) :: cells za a1 ++ cells za a2 ++
          (hd, mk l r (kroot k z) Red hs) :: (z, mk za (kroot kb p1) (cpar hd k) c n) ::
          ccells hd k z ++ F); [exact W|unfold t2; cperm|].
      clear W. intros h2 W. apply wp_ret. split; [destruct kb; auto|].
      rewrite Rt. eapply wfc_perm; [exact W|]. unfold t2. cperm. }
  clear W. intros xp h2 (-> & W). 
  eapply wp_frame_bind.
  { apply relink_c with (k := k) (y := y) (l := l) (r := r) (hs := hs)
      (cx := mk za (kroot kb y) (cpar hd k) c n)
      (F := (za, mk (rootp a1) (rootp a2) y ca na) :: cells za a1 ++ cells za a2 ++
      (y, mk za (kroot kb (rootp yb)) (cpar z kb) cy n1) :: cells y (plug kb yb) ++ F); [|reflexivity].
    eapply wfc_perm; [exact W|]. cperm. }
  clear W. intros u1 h3 W. cbv beta in W. go. split; auto. apply FINAL.
  eapply wfc_perm; [exact W|]. cperm.
Qed.

Lemma left_path_min kb : forall cy ny y yb, left_path kb ->
  List.hd null (inorder (plug kb (T cy ny E y yb))) = y.
Proof. intros cy ny y yb H. now rewrite inorder_plug, (left_path_lefts _ H). Qed.

Lemma nodup_split (z : node) : forall l1 l2 m1 m2,
  l1 ++ z :: l2 = m1 ++ z :: m2 -> NoDup (l1 ++ z :: l2) -> l1 = m1 /\ l2 = m2.
Proof.
  induction l1 as [|x l1 IH]; intros l2 [|y m1] m2 Eq N; cbn in *; injection Eq; intros; subst; auto.
  - exfalso. apply NoDup_cons_iff in N. apply (proj1 N). rewrite in_app_iff. cbn. auto.
  - exfalso. apply NoDup_cons_iff in N. apply (proj1 N). rewrite in_app_iff. cbn. auto.
  - apply NoDup_cons_iff in N. destruct (IH _ _ _ H (proj2 N)). subst. auto.
Qed.
Lemma plug_ne k : forall c n a x b, plug k (T c n a x b) <> E.
Proof. induction k; cbn; auto. easy. Qed.
(** changing the node and the count stored at one place of a context *)
Lemma kapp_krr c n a z k n' z' kb :
  krr (kapp kb (CR c n a z k)) -> krr (kapp kb (CR c n' a z' k)).
Proof.
  induction kb as [|? ? ? ? kb IH|? ? ? ? kb IH]; cbn; auto; intros (A & B & C & D); splits; auto;
    intros Q; apply D; destruct kb; auto.
Qed.
Lemma kapp_kcol c n a z k n' z' kb :
  kcol (kapp kb (CR c n a z k)) = kcol (kapp kb (CR c n' a z' k)).
Proof. now destruct kb. Qed.
Lemma kapp_kbh c n a z k n' z' m kb : forall j,
  kbh (kapp kb (CR c n a z k)) j m -> kbh (kapp kb (CR c n' a z' k)) j m.
Proof. induction kb; cbn; auto; intros j (A & B); auto. Qed.
Lemma kapp_kblack c n a z k n' z' kb :
  kblack (kapp kb (CR c n a z k)) -> kblack (kapp kb (CR c n' a z' k)).
Proof.
  induction kb as [|? ? ? ? kb IH|? ? ? ? kb IH]; cbn [kapp]; auto; cbn [kblack]; destruct kb; cbn in *; auto.
Qed.
Lemma kapp_ksized c n a z k z' kb : forall j,
  ksized (kapp kb (CR c n a z k)) j -> ksized (kapp kb (CR c n a z' k)) j.
Proof. induction kb; cbn; auto; intros j (A & B & C); auto. Qed.

Lemma rebalance_for_extract_spec fuel t F h l1 z l2 :
  tat h t F -> rbt rk t -> inorder t = l1 ++ z :: l2 -> size t < fuel ->
  wp (rebalance_for_extract rk hd fuel z)
     (fun r h' => r = z /\ exists t' cz, tat h' t' ((z, cz) :: F) /\ inorder t' = l1 ++ l2 /\ rbt rk t')
     noexn h.
Proof.
  intros W (NR & (m & B) & CB & SZ) I Fu.
  destruct (@focus t z) as (k & c & n & a & b & ->); [rewrite I, in_app_iff; cbn; auto|].
  assert (ND := proj1 (tat_nodup_in W)).
  assert (I' : l1 = lefts k ++ inorder a /\ l2 = inorder b ++ rights k).
  { rewrite I in ND. rewrite inorder_plug in I. cbn [inorder] in I.
    rewrite <- app_assoc in I. cbn [app] in I. rewrite app_assoc in I. symmetry in I.
    exact (@nodup_split _ _ _ _ _ I ND). }
  destruct I' as (-> & ->). clear I.
  assert (KL := klen_size k (T c n a z b)). cbn [size] in KL.
  assert (NR0 := NR). assert (B0 := B).
  rewrite norr_plug in NR. destruct NR as (NT & KR & KC). rewrite bh_plug in B. destruct B as (j & B & KH).
  assert (KB : kblack k).
  { destruct k; [exact Logic.I| |]; (eapply colr_plug; [|exact CB]; easy). }
  unfold rebalance_for_extract.
  (* at most one child *)
  assert (ONE : forall t1, (a = E /\ t1 = b \/ b = E /\ t1 = a) ->
    wp (rank_remove rk fuel z (kroot k z) ;;;
        xp <- (if negb (z =? z) then ext_splice2 rk hd z z (rootp t1) else ext_splice1 hd fuel z (rootp t1)) ;;
        c <- gc z ;;
        (if is_red c then ret tt else x <- ext_loop rk hd fuel (rootp t1) xp ;; blacken x) ;;; ret z)
     (fun r h' => r = z /\ exists t' cz, tat h' t' ((z, cz) :: F) /\
        inorder t' = (lefts k ++ inorder a) ++ inorder b ++ rights k /\ rbt rk t') noexn h).
  { intros t1 CH. rewrite Nat.eqb_refl. cbn [negb].
    assert (It : inorder t1 = inorder a ++ inorder b).
    { destruct CH as [[-> ->]|[-> ->]]; cbn; auto. now rewrite app_nil_r. }
    assert (St : size t1 = size a + size b) by (destruct CH as [[-> ->]|[-> ->]]; cbn; lia).
    eapply wp_frame_bind; [apply (rank_remove_spec rk k (t := T c n a z b) W); [easy|lia]|].
    clear W. intros u h1 W. cbv beta in W.
    eapply wp_frame_bind; [eapply ext_splice1_spec with (t1 := t1) (1 := W); [exact CH|lia]|].
    clear W. intros xp h2 (-> & cz & Cz & W).
    assert (W0 := W). unfold OrdRot.tat in W. flat W. step1. rewrite Cz. clear W. rename W0 into W.
    assert (I1 : inorder (plug (kdec rk k) t1) = (lefts k ++ inorder a) ++ inorder b ++ rights k).
    { rewrite inorder_plug, kdec_lefts, kdec_rights, It. now rewrite <- !app_assoc. }
    assert (SZ1 : szd (plug (kdec rk k) t1)).
    { intros R. specialize (SZ R). rewrite sized_plug in *. cbn in SZ. destruct SZ as ((_ & Sa & Sb) & K).
      split; [destruct CH as [[-> ->]|[-> ->]]; auto|].
      apply kdec_ksized; auto. rewrite St. replace (S (size a + size b)) with (size a + size b + 1) by lia. exact K. }
    cbn in NT. destruct NT as (Na & Nb & Cab).
    destruct c; cbn [is_red].
    - go. split; auto. exists (plug (kdec rk k) t1), cz. splits; auto.
      unfold rbt. inversion B; subst. destruct (Cab eq_refl) as (Ca & Cb). splits; auto.
      + rewrite norr_plug, kdec_krr. splits; auto; destruct CH as [[-> ->]|[-> ->]]; auto.
      + exists m. rewrite bh_plug. exists j. rewrite kdec_kbh. split; auto.
        destruct CH as [[-> ->]|[-> ->]]; auto.
      + assert (k <> Top) by (intros ->; cbn in CB; discriminate).
        apply colr_plug; [now destruct k|]. now apply kdec_kblack.
    - inversion B; subst. eapply wp_frame_bind.
      { replace (cpar hd k) with (cpar hd (kdec rk k)) by (now destruct k).
        eapply ext_fix_spec with (m := m) (l0 := (lefts k ++ inorder a) ++ inorder b ++ rights k)
          (F := (z, cz) :: F) (hs := hs); [|rewrite kdec_klen; lia].
        unfold einv. rewrite kdec_krr, kdec_kblack. splits; auto.
        - apply norr_black. destruct CH as [[-> ->]|[-> ->]]; auto.
        - eexists. rewrite kdec_kbh. split; [|eassumption]. destruct CH as [[-> ->]|[-> ->]]; auto. }
      intros u1 h3 (t' & W1 & I2 & R). apply wp_ret. split; auto. exists t', cz. auto. }
  unfold ext_choose.
  destruct a as [|ca na a1 za a2].
  { assert (W0 := W). apply tat_open in W. flat W. go. apply (ONE b). auto. }
  assert (CB' : b = E \/ b <> E) by (destruct b; [now left|now right]).
  destruct CB' as [->|NEb].
  { assert (W0 := W). apply tat_open in W. flat W. go. apply (ONE (T ca na a1 za a2)). auto. }
  clear ONE.
  destruct (@min_focus b NEb) as (kb & cy & ny & y & yb & Eb & LP & _ & _). apply lefts_nil in LP.
  rewrite Eb in *. clear Eb NEb b.
  set (a := T ca na a1 za a2) in *.
  set (K := kapp kb (CR c n a z k)).
  assert (EK : forall s, plug k (T c n a z (plug kb s)) = plug K s) by (intros s; unfold K; now rewrite plug_kapp).
  eapply wp_frame_bind with (Q' := fun yx h' => yx = (y, rootp yb) /\ h' = h).
  { assert (W0 := W). apply tat_open in W. unfold a in W. flat W. step1. eqb_tac. step1.
    assert (Nr : (rootp (plug kb (T cy ny E y yb)) =? null) = false).
    { apply Nat.eqb_neq. intros Q.
      assert (RI := rootp_in (plug kb (T cy ny E y yb))). rewrite Q in RI.
      destruct (plug kb (T cy ny E y yb)) eqn:P; [now apply plug_ne in P|].
      cbn in Q. apply (proj2 (proj2 (tat_nodup_in W0))). rewrite inorder_plug. cbn. rewrite Q.
      rewrite !in_app_iff. cbn. rewrite !in_app_iff. cbn. auto 8. }
    rewrite Nr.
    eapply wp_frame_bind.
    { eapply (@minimum_spec (plug kb (T cy ny E y yb))) with (p := z); [exact W|csub| |].
      - intros P. now apply plug_ne in P.
      - lia. }
    intros ? ? (-> & ->). rewrite left_path_min by auto.
    clear W. assert (W := W0). rewrite EK in W. apply tat_open in W. flat W. go. auto. }
  intros ? ? (-> & ->).
  assert (NEyz : (y =? z) = false).
  { apply Nat.eqb_neq. intros ->. rewrite inorder_plug in ND. cbn [inorder] in ND. rewrite inorder_plug in ND.
    cbn [inorder app] in ND. rewrite (left_path_lefts _ LP) in ND. cbn [app] in ND.
    apply NoDup_app_iff in ND. destruct ND as (_ & ND & _). apply NoDup_app_iff in ND. destruct ND as (ND & _ & _).
    apply NoDup_app_iff in ND. destruct ND as (_ & ND & _). apply NoDup_cons_iff in ND. apply (proj1 ND). now left. }
  assert (SZ0 : szd (plug K (T cy ny E y yb))) by (rewrite <- EK; exact SZ).
  eapply wp_frame_bind with (Q' := fun v h' => v = kroot K y /\ h' = h).
  { rewrite EK in W. apply tat_open in W. flat W. apply wp_bindr. go. auto. }
  intros ? ? (-> & ->).
  assert (KLb := klen_size kb (T cy ny E y yb)). cbn [size] in KLb.
  assert (KK : klen K < fuel - 1) by (unfold K; rewrite klen_kapp; cbn [klen]; lia).
  rewrite EK in W.
  eapply wp_frame_bind; [apply (rank_remove_spec rk K (t := T cy ny E y yb) W); [easy|lia]|].
  clear W. intros u h1 W. cbv beta in W. rewrite NEyz. cbn [negb].
  assert (DK : kdec rk K = kapp (kdec rk kb) (CR c (rsz (n - 1) n) a z (kdec rk k))).
  { unfold K. rewrite kdec_kapp. reflexivity. }
  set (n1 := rsz (n - 1) n) in *.
  rewrite DK, plug_kapp in W. cbn [plug] in W.
  assert (LPd : left_path (kdec rk kb)).
  { apply lefts_nil. rewrite kdec_lefts. now apply left_path_lefts. }
  eapply wp_frame_bind.
  { eapply ext_splice2_spec with (1 := W); [easy|exact LPd]. }
  clear W. intros xp h2 (-> & cz & Cz & W).
  set (n2 := rsz n1 ny) in *.
  assert (W0 := W). unfold OrdRot.tat in W. flat W. step1. rewrite Cz. clear W. rename W0 into W.
  set (K2 := kapp (kdec rk kb) (CR c n2 a y (kdec rk k))).
  assert (E2 : forall s, plug (kdec rk k) (T c n2 a y (plug (kdec rk kb) s)) = plug K2 s)
    by (intros s; unfold K2; now rewrite plug_kapp).
  assert (XP : cpar y (kdec rk kb) = cpar hd K2) by (unfold K2; now destruct kb).
  rewrite E2 in W.
  assert (I1 : inorder (plug K2 yb) = (lefts k ++ inorder a) ++ inorder (plug kb (T cy ny E y yb)) ++ rights k).
  { rewrite !inorder_plug. unfold K2. rewrite lefts_kapp, rights_kapp. cbn [lefts rights].
    rewrite !kdec_lefts, !kdec_rights, (left_path_lefts _ LP). cbn [inorder app].
    rewrite app_nil_r, <- !app_assoc. reflexivity. }
  assert (SZ1 : szd (plug K2 yb)).
  { intros R. specialize (SZ0 R). rewrite sized_plug in SZ0. cbn [sized size] in SZ0.
    destruct SZ0 as ((_ & _ & Sy) & Ks). rewrite sized_plug. split; auto.
    replace (0 + size yb + 1) with (S (size yb)) in Ks by lia.
    apply (kdec_ksized rk K (size yb) R) in Ks. rewrite DK in Ks. unfold K2.
    replace n2 with n1 by (unfold n2, OrdRot.rsz; now rewrite R).
    eapply kapp_ksized; exact Ks. }
  rewrite EK in NR0, B0, CB. clear NT KR KC B j KH KB.
  rewrite norr_plug in NR0. destruct NR0 as (NT & KR & KC). cbn [norr colr] in NT, KC.
  rewrite bh_plug in B0. destruct B0 as (j & B & KH).
  assert (NK : K <> Top) by (unfold K; now destruct kb).
  assert (NK2 : K2 <> Top) by (unfold K2; now destruct kb).
  apply colr_plug in CB; auto.
  assert (KR2 : krr K2).
  { unfold K2. apply kapp_krr with (n := n1) (z := z). rewrite <- DK. now apply kdec_krr. }
  assert (KB2 : kblack K2).
  { unfold K2. apply kapp_kblack with (n := n1) (z := z). rewrite <- DK. now apply kdec_kblack. }
  assert (KH2 : kbh K2 j m).
  { unfold K2. apply kapp_kbh with (n := n1) (z := z). rewrite <- DK. now apply kdec_kbh. }
  assert (KC2 : kcol K2 = kcol K).
  { unfold K2. rewrite (@kapp_kcol c n2 a y (kdec rk k) n1 z). now rewrite <- DK, kdec_kcol. }
  destruct cy; cbn [is_red].
  - go. split; auto. exists (plug K2 yb), cz. splits; auto.
    inversion B; subst. unfold rbt. splits; auto.
    + rewrite norr_plug. splits; auto; tauto.
    + exists m. rewrite bh_plug. eauto.
    + now apply colr_plug.
  - inversion B; subst. rewrite XP. eapply wp_frame_bind.
    { eapply ext_fix_spec with (m := m) (F := (z, cz) :: F);
        [|unfold K2; rewrite klen_kapp; cbn [klen]; rewrite !kdec_klen;
          unfold K in KK; rewrite klen_kapp in KK; cbn [klen] in KK; lia].
      unfold einv. splits; [exact W|exact I1| |auto|auto|auto|eauto].
      apply norr_black. tauto. }
    intros u1 h3 (t' & W1 & I2 & R). apply wp_ret. split; auto. exists t', cz. auto.
Qed.
End Ext.
