(** Extraction from the red-black tree: choice, splicing and the complete function. *)
From Verif Require Import Prelude OrdModel OrdTree OrdHeap OrdRot OrdIns OrdLink OrdExt.
Set Implicit Arguments.

Section Ext.
Variable rk : bool.
Variable hd : node.
Variable hs : nat.
Notation tat := (tat hd hs).
Notation rsz := (rsz rk).
Notation szd := (szd rk).
Ltac close t0 := lazymatch goal with W : wfc _ _ |- OrdRot.tat _ _ _ (plug ?k _) _ =>
  eapply (@tat_close hd hs _ k _ _ t0 _ W); [inord|cperm] end.
Ltac retat t1 F t0 := lazymatch goal with W : wfc ?h _ |- _ =>
  let W1 := fresh "W" in assert (W1 : tat h t1 F) by close t0; clear W; rename W1 into W end.
Ltac nob P0 t0 := lazymatch goal with W : wfc _ _ |- _ =>
  eapply (@wp_null_or_black _ _ _ P0 t0); [exact W|csub|] end.
Ltac blk p t := lazymatch goal with W : wfc ?h ?L |- wp (bind (blacken _) _) _ _ ?h =>
    let R := pulla (cells p t) L in
    eapply (@wp_blacken _ h L p t R _ _ _ W);
    [cperm|clear dependent h; let h' := fresh "h" in intros h' W; cbn [recol] in W; flat W] end.

Notation done := (done rk hd hs).
(** ** The loop *)
(** [tx] is one black node short *)
Definition einv (k : ctx) (tx : tree) (m : nat) (l0 : list node) F h : Prop :=
  tat h (plug k tx) F /\ inorder (plug k tx) = l0 /\ norr (recol Black tx) /\ krr k /\
  kblack k /\ szd (plug k tx) /\ exists j, bh tx j /\ kbh k (S j) m.

Definition epost (l0 : list node) F (x : node) h : Prop :=
  exists k t m, x = rootp t /\ tat h (plug k t) F /\ inorder (plug k t) = l0 /\
    norr (plug k (recol Black t)) /\ bh (plug k (recol Black t)) m /\
    colr (plug k (recol Black t)) = Black /\ szd (plug k t).

Definition lstep (k0 : ctx) (tx : tree) m l0 F (r : option (node * node)) h' : Prop :=
  match r with
  | None => done k0 tx m l0 F h'
  | Some (x', xp') => exists k t, x' = rootp t /\ xp' = cpar hd k /\ einv k t m l0 F h' /\ t <> E /\
      (klen k < klen k0 \/ colr t = Red)
  end.

Lemma fix_left_spec h k c n tx xp w F m l0 :
  einv (CL c n xp w k) tx m l0 F h -> colr tx = Black ->
  wp (fix_left rk hd xp) (lstep (CL c n xp w k) tx m l0 F) noexn h.
Proof.
  intros (W & I & Nx & (Nw & KR & Cw & KC) & KB & SZ & j & Bx & Bw & KH) Cx.
  rewrite recol_same in Nx by auto. cbn [plug] in *.
  unfold fix_left. destruct w as [|cw nw wl w wr]; [inversion Bw|].
  destruct cw.
  - (* red sibling *)
    assert (c = Black) by (destruct c; auto; now specialize (Cw eq_refl)). subst c.
    cbn in Nw. destruct Nw as (Nl & Nr & Cc). destruct (Cc eq_refl) as (Cl & Cr).
    inversion Bw as [|? ? ? ? ? Bl Br|]; subst.
    destruct wl as [|[] nl la v lb]; [inversion Bl|discriminate|]. inversion Bl; subst.
    apply tat_open in W. flat W. go. isb. go.
    retat (plug k (T Red n tx xp (T Black nw (T Black nl la v lb) w wr))) F
          (plug k (T Black n tx xp (T Red nw (T Black nl la v lb) w wr))).
    eapply wp_frame_bind; [apply (rotate_left_spec rk _ _ _ _ _ _ _ _ _ _ W)|].
    clear W. intros u h1 W. cbv beta in W.
    remember (rsz n nw) as n1. remember (rsz (cnt tx + cnt (T Black nl la v lb) + 1) n) as n2.
    assert (W0 := W). apply tat_open in W. flat W. go. clear W. rename W0 into W.
    cbn in Nl. destruct Nl as (Nla & Nlb & _).
    eapply wp_conseq; [apply (@fix_left2_spec rk hd hs _ (CL Black n1 w wr k) Red n2 tx xp nl la v lb F j m
       (inorder (plug k (T Black n tx xp (T Red nw (T Black nl la v lb) w wr)))))| |auto]; auto.
    + inord.
    + cbn. splits; auto; try discriminate.

    + cbn. splits; auto.
    + subst n1 n2. apply szd_rotl. revert SZ. apply szd_ext; [cbn; tauto|reflexivity].
    + intros r h2 H. unfold lstep. destruct r as [[x' xp']|].
      * destruct H as (-> & -> & W1 & Ca & Cb).
        exists (CL Black n1 w wr k), (T Red n2 tx xp (T Red nl la v lb)).
        splits; auto; [|easy]. unfold einv. splits; auto.
        -- inord.
        -- cbn. splits; auto; try discriminate.
        -- cbn. splits; auto; try discriminate.
        -- subst n1 n2.
           apply (@szd_ext rk (CL Black (rsz n nw) w wr k) (T Red (rsz (cnt tx + cnt (T Black nl la v lb) + 1) n) tx xp (T Black nl la v lb)));
             [cbn; tauto|reflexivity|].
           apply szd_rotl. revert SZ. apply szd_ext; [cbn; tauto|reflexivity].
        -- exists j. split; [repeat constructor; auto|]. cbn. auto.
      * exact H.
  - cbn in Nw. destruct Nw as (Nl & Nr & _). inversion Bw as [| |? ? ? ? ? Bl Br]; subst.
    assert (W0 := W). apply tat_open in W. flat W. go. isb. go. clear W. rename W0 into W.
    eapply wp_conseq; [eapply fix_left2_spec with (j := j) (m := m) (l0 := inorder (plug k (T c n tx xp (T Black nw wl w wr)))) (1 := W)| |auto];
      auto.
    intros r h1 H. unfold lstep. destruct r as [[x' xp']|]; [|exact H].
    destruct H as (-> & -> & W1 & Ca & Cb).
    exists k, (T c n tx xp (T Red nw wl w wr)). splits; auto; [|easy].
    unfold einv. splits; auto.
    + inord.
    + cbn. splits; auto; try discriminate. 
    + destruct k; [exact Logic.I| |]; exact KB.
    + revert SZ. apply szd_ext; [cbn; tauto|reflexivity].
    + exists (match c with Red => j | Black => S j end). split.
      * destruct c; repeat constructor; auto.
      * destruct c; auto.
Qed.

Lemma fix_right_spec h k c n tx xp w F m l0 :
  einv (CR c n w xp k) tx m l0 F h -> colr tx = Black ->
  wp (fix_right rk hd xp) (lstep (CR c n w xp k) tx m l0 F) noexn h.
Proof.
  intros (W & I & Nx & (Nw & KR & Cw & KC) & KB & SZ & j & Bx & Bw & KH) Cx.
  rewrite recol_same in Nx by auto. cbn [plug] in *.
  unfold fix_right. destruct w as [|cw nw wl w wr]; [inversion Bw|].
  destruct cw.
  - (* red sibling *)
    assert (c = Black) by (destruct c; auto; now specialize (Cw eq_refl)). subst c.
    cbn in Nw. destruct Nw as (Nl & Nr & Cc). destruct (Cc eq_refl) as (Cl & Cr).
    inversion Bw as [|? ? ? ? ? Bl Br|]; subst.
    destruct wr as [|[] nr ra v rb]; [inversion Br|discriminate|]. inversion Br; subst.
    apply tat_open in W. flat W. go. isb. go.
    retat (plug k (T Red n (T Black nw wl w (T Black nr ra v rb)) xp tx)) F
          (plug k (T Black n (T Red nw wl w (T Black nr ra v rb)) xp tx)).
    eapply wp_frame_bind; [apply (rotate_right_spec rk _ _ _ _ _ _ _ _ _ _ W)|].
    clear W. intros u h1 W. cbv beta in W.
    remember (rsz n nw) as n1. remember (rsz (cnt (T Black nr ra v rb) + cnt tx + 1) n) as n2.
    assert (W0 := W). apply tat_open in W. flat W. go. clear W. rename W0 into W.
    cbn in Nr. destruct Nr as (Nra & Nrb & _).
    eapply wp_conseq; [apply (@fix_right2_spec rk hd hs _ (CR Black n1 wl w k) Red n2 tx xp nr ra v rb F j m
       (inorder (plug k (T Black n (T Red nw wl w (T Black nr ra v rb)) xp tx))))| |auto]; auto.
    + inord.
    + cbn. splits; auto; try discriminate.

    + cbn. splits; auto.
    + subst n1 n2. apply szd_rotr. revert SZ. apply szd_ext; [cbn; tauto|reflexivity].
    + intros r h2 H. unfold lstep. destruct r as [[x' xp']|].
      * destruct H as (-> & -> & W1 & Ca & Cb).
        exists (CR Black n1 wl w k), (T Red n2 (T Red nr ra v rb) xp tx).
        splits; auto; [|easy]. unfold einv. splits; auto.
        -- inord.
        -- cbn. splits; auto; try discriminate.
        -- cbn. splits; auto; try discriminate.
        -- subst n1 n2.
           apply (@szd_ext rk (CR Black (rsz n nw) wl w k) (T Red (rsz (cnt (T Black nr ra v rb) + cnt tx + 1) n) (T Black nr ra v rb) xp tx));
             [cbn; tauto|reflexivity|].
           apply szd_rotr. revert SZ. apply szd_ext; [cbn; tauto|reflexivity].
        -- exists j. split; [repeat constructor; auto|]. cbn. auto.
      * exact H.
  - cbn in Nw. destruct Nw as (Nl & Nr & _). inversion Bw as [| |? ? ? ? ? Bl Br]; subst.
    assert (W0 := W). apply tat_open in W. flat W. go. isb. go. clear W. rename W0 into W.
    eapply wp_conseq; [eapply fix_right2_spec with (j := j) (m := m) (l0 := inorder (plug k (T c n (T Black nw wl w wr) xp tx))) (1 := W)| |auto];
      auto.
    intros r h1 H. unfold lstep. destruct r as [[x' xp']|]; [|exact H].
    destruct H as (-> & -> & W1 & Ca & Cb).
    exists k, (T c n (T Red nw wl w wr) xp tx). splits; auto; [|easy].
    unfold einv. splits; auto.
    + inord.
    + cbn. splits; auto; try discriminate. 
    + destruct k; [exact Logic.I| |]; exact KB.
    + revert SZ. apply szd_ext; [cbn; tauto|reflexivity].
    + exists (match c with Red => j | Black => S j end). split.
      * destruct c; repeat constructor; auto.
      * destruct c; auto.
Qed.

Lemma kroot_in k q : k <> Top -> In (kroot k q) (lefts k ++ rights k).
Proof.
  revert q. induction k as [|c n x r k IH|c n l x k IH]; intros q H; [easy| |];
    (assert (D : k = Top \/ k <> Top) by (destruct k; [now left|now right|now right]);
     destruct D as [->|D]; [cbn; rewrite ?in_app_iff; cbn; auto|];
     specialize (IH x D); cbn [kroot lefts rights]; rewrite in_app_iff in IH;
     repeat (rewrite in_app_iff; cbn [In]); tauto).
Qed.
Lemma rootp_in t : In (rootp t) (null :: inorder t).
Proof. destruct t; cbn; auto. rewrite in_app_iff. cbn. auto. Qed.
Lemma ctx_disj h k t F x y : tat h (plug k t) F -> In x (null :: inorder t) -> In y (lefts k ++ rights k) -> x <> y.
Proof.
  intros W Ix Iy ->. apply tat_nodup_in in W. destruct W as (N & _ & Nn). rewrite inorder_plug in *.
  rewrite !in_app_iff in *. destruct Ix as [<-|Ix]; [tauto|].
  apply NoDup_app_iff in N. destruct N as (_ & N & D). apply NoDup_app_iff in N. destruct N as (_ & _ & D').
  destruct Iy as [Iy|Iy]; [apply (D y); auto; rewrite in_app_iff; auto|apply (D' y); auto].
Qed.

Lemma ext_loop_spec fuel : forall k tx m l0 F h,
  einv k tx m l0 F h -> (colr tx = Red /\ 0 < fuel \/ klen k + 1 < fuel) ->
  wp (ext_loop rk hd fuel (rootp tx) (cpar hd k)) (fun x h' => epost l0 F x h') noexn h.
Proof.
  induction fuel as [|f IH]; intros k tx m l0 F h V Fu; [lia|].
  assert (V0 := V). destruct V as (W & I & Nx & KR & KB & SZ & j & Bx & KH).
  assert (W0 := W). cbn [ext_loop].
  assert (CK : k = Top \/ k <> Top) by (destruct k; [now left|now right|now right]).
  destruct CK as [->|NT].
  - cbn [plug] in *. unfold OrdRot.tat, hcell in W. flat W. step1. rewrite Nat.eqb_refl. go.
    destruct (bh_black_any Bx) as (m' & Bm). exists Top, tx, m'. cbn [plug]. splits; auto. apply colr_black.
  - assert (NR : (rootp tx =? kroot k (rootp tx)) = false).
    { apply Nat.eqb_neq. eapply ctx_disj; eauto using rootp_in, kroot_in. }
    apply tat_open in W. flat W. step1. rewrite NR. nob (cpar hd k) tx.
    destruct (colr tx) eqn:Cx; isb.
    + go. exists k, tx, m. splits; auto.
      * rewrite norr_plug. splits; auto. intros _. apply colr_black.
      * rewrite bh_plug. exists (S j). split; auto. now apply bh_black.
      * now apply colr_plug.
    + destruct Fu as [[A _]|Fu]; [discriminate|].
      assert (CONT : forall r h', lstep k tx m l0 F r h' ->
        wp (match r with None => ret (rootp tx) | Some (x', xp') => ext_loop rk hd f x' xp' end)
           (fun x h' => epost l0 F x h') noexn h').
      { intros [[x' xp']|] h' L.
        - destruct L as (k' & t' & -> & -> & V' & NE & M). eapply IH; eauto.
          destruct M as [M|M]; [right; lia|left; split; auto; lia].
        - destruct L as (k' & W' & I' & N' & B' & C' & S'). apply wp_ret.
          exists k', tx, m. rewrite (recol_same tx Cx). splits; auto. }
      destruct k as [|c n xp w k|c n w xp k]; [easy| |]; cbn [cpar].
      * flat W. step1. rewrite Nat.eqb_refl.
        eapply wp_frame_bind; [apply (fix_left_spec V0 Cx)|]. intros r h' L. now apply CONT.
      * flat W. step1.
        assert (NL : (rootp tx =? rootp w) = false).
        { apply Nat.eqb_neq. eapply ctx_disj; [exact W0|apply rootp_in|].
          destruct KH as (Bw & _). destruct w as [|cw nw wa w wb]; [inversion Bw|]. cbn.
          rewrite !in_app_iff. cbn. auto 6. }
        rewrite NL.
        eapply wp_frame_bind; [apply (fix_right_spec V0 Cx)|]. intros r h' L. now apply CONT.
Qed.

(** the loop followed by blackening x *)
Lemma ext_fix_spec fuel k tx m l0 F h :
  einv k tx m l0 F h -> klen k + 1 < fuel ->
  wp (x <- ext_loop rk hd fuel (rootp tx) (cpar hd k) ;; blacken x)
     (fun _ h' => exists t', tat h' t' F /\ inorder t' = l0 /\ rbt rk t') noexn h.
Proof.
  intros V Fu. eapply wp_frame_bind; [apply ext_loop_spec with (1 := V); auto|].
  intros x h1 (k1 & t1 & m1 & -> & W & I & N & B & C & Z).
  assert (FIN : forall h2, tat h2 (plug k1 (recol Black t1)) F ->
     exists t', tat h2 t' F /\ inorder t' = l0 /\ rbt rk t').
  { intros h2 W2. exists (plug k1 (recol Black t1)). splits; auto.
    - rewrite <- I, !inorder_plug, inorder_recol. reflexivity.
    - unfold rbt. splits; eauto. intros R. specialize (Z R). rewrite sized_plug in *.
      rewrite sized_recol, size_recol. auto. }
  assert (W0 := W). apply tat_open in W. flat W. apply wp_bindr.
  destruct t1 as [|c n a x b].
  - unfold blacken. cbn [rootp]. cbn. apply FIN. exact W0.
  - eapply wp_blacken with (p := cpar hd k1) (t := T c n a x b)
      (F := (hd, mk (List.hd hd (inorder (plug k1 (T c n a x b)))) (last (inorder (plug k1 (T c n a x b))) hd)
                  (kroot k1 x) Red hs) :: ccells hd k1 x ++ F); [exact W|cperm|].
    clear W W0. intros h2 W. apply wp_ret. apply FIN. cbn [recol] in *. flat W.
    close (plug k1 (T c n a x b)).
Qed.
End Ext.
