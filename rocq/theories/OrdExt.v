(** Extraction from the red-black tree: the rebalancing loop. *)
From Verif Require Import Prelude OrdModel OrdTree OrdHeap OrdRot OrdIns OrdLink.
Set Implicit Arguments.

Ltac isb := cbn [is_black is_red negb].
Ltac bhs := repeat match goal with
  | B : bh (T _ _ _ _ _) _ |- _ => inversion B; clear B; subst
  end.
(** the root is black *)
Ltac kbl KB k :=
  let Q := fresh in
  destruct k; [exact KB| |]; (apply colr_plug; [easy|exact KB]).

Lemma wp_bindr {A} (m : HM A) Q Ex h : wp (bind m (fun a => ret a)) Q Ex h -> wp m Q Ex h.
Proof. unfold wp, bind, ret. now destruct (m h). Qed.

Section Ext.
Variable rk : bool.
Variable hd : node.
Variable hs : nat.
Notation tat := (tat hd hs).
Notation rsz := (rsz rk).
Notation szd := (szd rk).
Ltac close t0 := lazymatch goal with W : wfc _ _ |- OrdRot.tat _ _ _ (plug ?k _) _ =>
  eapply (@tat_close hd hs _ k _ _ t0 _ W); [inord|cperm] end.
Ltac retat t1 F t0 := lazymatch goal with W : wfc ?h _ |- _ =>
  let W1 := fresh "W" in assert (W1 : tat h t1 F) by close t0; clear W; rename W1 into W end.
Ltac nob P0 t0 := lazymatch goal with W : wfc _ _ |- _ =>
  eapply (@wp_null_or_black _ _ _ P0 t0); [exact W|csub|] end.
Ltac blk p t := lazymatch goal with W : wfc ?h ?L |- wp (bind (blacken _) _) _ _ ?h =>
    let R := pulla (cells p t) L in
    eapply (@wp_blacken _ h L p t R _ _ _ W);
    [cperm|clear dependent h; let h' := fresh "h" in intros h' W; cbn [recol] in W; flat W] end.

(** outcome of the loop body: done, or continue one level up *)
Definition done (k : ctx) (tx : tree) (m : nat) (l0 : list node) F h' : Prop :=
  exists k', tat h' (plug k' tx) F /\ inorder (plug k' tx) = l0 /\ norr (plug k' tx) /\
             bh (plug k' tx) m /\ colr (plug k' tx) = Black /\ szd (plug k' tx).

Lemma colr_cases t : colr t = Black \/ exists n a x b, t = T Red n a x b.
Proof. destruct t as [|[] n a x b]; cbn; eauto 6. Qed.
Lemma is_black_true c : is_black c = true <-> c = Black.
Proof. now destruct c. Qed.

Lemma fix_left2_spec h k c n tx xp nw wl w wr F j m l0 :
  tat h (plug k (T c n tx xp (T Black nw wl w wr))) F ->
  inorder (plug k (T c n tx xp (T Black nw wl w wr))) = l0 ->
  norr tx -> norr wl -> norr wr -> colr tx = Black -> krr k -> (kcol k = Red -> c = Black) ->
  kblack (CL c n xp E k) ->
  bh tx j -> bh wl j -> bh wr j -> kbh k (match c with Red => S j | Black => S (S j) end) m ->
  szd (plug k (T c n tx xp (T Black nw wl w wr))) ->
  wp (fix_left2 rk hd xp w) (fun r h' =>
    match r with
    | Some (x', xp') => x' = xp /\ xp' = cpar hd k /\
        tat h' (plug k (T c n tx xp (T Red nw wl w wr))) F /\ colr wl = Black /\ colr wr = Black
    | None => done k tx m l0 F h'
    end) noexn h.
Proof.
  intros W I Nx Nl Nr Cx KR KC KB Bx Bl Br KH SZ. apply tat_open in W. flat W.
  unfold fix_left2. go. nob w wl.
  destruct (colr_cases wr) as [Cr|(nr & ra & r & rb & ->)].
  - destruct (colr_cases wl) as [Cl|(nl & la & v & lb & ->)].
    + rewrite Cl. isb. go. nob w wr. rewrite Cr. isb. go.
      splits; auto. close (plug k (T c n tx xp (T Black nw wl w wr))).
    + cbn [colr]. isb. go. nob w wr. rewrite Cr. isb. go.
      blk w (T Red nl la v lb). go.
      retat (plug (CR c n tx xp k) (T Red nw (T Black nl la v lb) w wr)) F (plug k (T c n tx xp (T Black nw (T Red nl la v lb) w wr))). eapply wp_frame_bind; [apply (rotate_right_spec rk _ _ _ _ _ _ _ _ _ _ W)|].
      clear W. intros u h1 W. cbv beta in W. apply tat_open in W. flat W. go.
      unfold blacken. go.
      retat (plug k (T Black n tx xp (T c (rsz nw nl) la v
                     (T Black (rsz (cnt lb + cnt wr + 1) nw) lb w wr)))) F (plug (CR c n tx xp k) (T Black (rsz nw nl) la v (T Red (rsz (cnt lb + cnt wr + 1) nw) lb w wr))). eapply wp_frame_bind; [apply (rotate_left_spec rk _ _ _ _ _ _ _ _ _ _ W)|].
      clear W. intros u1 h1 W. cbv beta in W. apply wp_ret.
      eexists (CL _ _ xp la (CL _ _ v _ k)). cbn [plug].
      split; [exact W|]. rewrite <- I. bhs. cbn in Nl. splits.
      * inord.
      * rewrite norr_plug. cbn. intuition discriminate.
      * rewrite bh_plug. exists (match c with Red => S j | Black => S (S j) end). split; auto.
        destruct c; repeat constructor; auto.
      * kbl KB k.
      * clear W. apply szd_rotl. apply (@szd_ext rk k (T c n tx xp (T Black (rsz nw nl) la v (T Red (rsz (cnt lb + cnt wr + 1) nw) lb w wr))));
          [cbn; tauto|reflexivity|].
        apply (@szd_rotr rk (CR c n tx xp k) Red nw wr w Black nl la v lb). revert SZ. cbn [plug].
        apply szd_ext; [cbn; tauto|reflexivity].
  - isb. assert (BR : is_black (colr (T Red nr ra r rb)) = false) by reflexivity.
    eapply wp_frame_bind with (Q' := fun b h' => b = false /\ h' = h).
    { destruct (is_black (colr wl)).
      - go. apply wp_bindr. nob w (T Red nr ra r rb). rewrite BR. apply wp_ret. auto.
      - apply wp_ret. auto. }
    intros b h' (-> & ->). go. nob w (T Red nr ra r rb). rewrite BR. go.
    blk w (T Red nr ra r rb).
    retat (plug k (T Black n tx xp (T c nw wl w (T Black nr ra r rb)))) F (plug k (T c n tx xp (T Black nw wl w (T Red nr ra r rb)))). eapply wp_frame_bind; [apply (rotate_left_spec rk _ _ _ _ _ _ _ _ _ _ W)|].
    clear W. intros u1 h1 W. cbv beta in W. apply wp_ret.
    eexists (CL _ _ xp wl (CL _ _ w _ k)). cbn [plug].
    split; [exact W|]. rewrite <- I. bhs. cbn in Nr. splits.
    + inord.
    + rewrite norr_plug. cbn. intuition discriminate.
    + rewrite bh_plug. exists (match c with Red => S j | Black => S (S j) end). split; auto.
      destruct c; repeat constructor; auto.
    + kbl KB k.
    + apply szd_rotl. revert SZ. apply szd_ext; [cbn; tauto|reflexivity].
Qed.

Lemma fix_right2_spec h k c n tx xp nw wl w wr F j m l0 :
  tat h (plug k (T c n (T Black nw wl w wr) xp tx)) F ->
  inorder (plug k (T c n (T Black nw wl w wr) xp tx)) = l0 ->
  norr tx -> norr wl -> norr wr -> colr tx = Black -> krr k -> (kcol k = Red -> c = Black) ->
  kblack (CR c n E xp k) ->
  bh tx j -> bh wl j -> bh wr j -> kbh k (match c with Red => S j | Black => S (S j) end) m ->
  szd (plug k (T c n (T Black nw wl w wr) xp tx)) ->
  wp (fix_right2 rk hd xp w) (fun r h' =>
    match r with
    | Some (x', xp') => x' = xp /\ xp' = cpar hd k /\
        tat h' (plug k (T c n (T Red nw wl w wr) xp tx)) F /\ colr wl = Black /\ colr wr = Black
    | None => done k tx m l0 F h'
    end) noexn h.
Proof.
  intros W I Nx Nl Nr Cx KR KC KB Bx Bl Br KH SZ. apply tat_open in W. flat W.
  unfold fix_right2. go. nob w wr.
  destruct (colr_cases wl) as [Cl|(nl & la & v & lb & ->)].
  - destruct (colr_cases wr) as [Cr|(nr & ra & r & rb & ->)].
    + rewrite Cr. isb. go. nob w wl. rewrite Cl. isb. go.
      splits; auto. close (plug k (T c n (T Black nw wl w wr) xp tx)).
    + cbn [colr]. isb. go. nob w wl. rewrite Cl. isb. go.
      blk w (T Red nr ra r rb). go.
      retat (plug (CL c n xp tx k) (T Red nw wl w (T Black nr ra r rb))) F
            (plug k (T c n (T Black nw wl w (T Red nr ra r rb)) xp tx)).
      eapply wp_frame_bind; [apply (rotate_left_spec rk _ _ _ _ _ _ _ _ _ _ W)|].
      clear W. intros u h1 W. cbv beta in W. apply tat_open in W. flat W. go.
      unfold blacken. go.
      retat (plug k (T Black n (T c (rsz nw nr) (T Black (rsz (cnt wl + cnt ra + 1) nw) wl w ra) r rb) xp tx)) F
            (plug (CL c n xp tx k) (T Black (rsz nw nr) (T Red (rsz (cnt wl + cnt ra + 1) nw) wl w ra) r rb)).
      eapply wp_frame_bind; [apply (rotate_right_spec rk _ _ _ _ _ _ _ _ _ _ W)|].
      clear W. intros u1 h1 W. cbv beta in W. apply wp_ret.
      eexists (CR _ _ rb xp (CR _ _ _ r k)). cbn [plug].
      split; [exact W|]. rewrite <- I. bhs. cbn in Nr. splits.
      * inord.
      * rewrite norr_plug. cbn. intuition discriminate.
      * rewrite bh_plug. exists (match c with Red => S j | Black => S (S j) end). split; auto.
        destruct c; repeat constructor; auto.
      * kbl KB k.
      * clear W. apply szd_rotr. apply (@szd_ext rk k (T c n (T Black (rsz nw nr) (T Red (rsz (cnt wl + cnt ra + 1) nw) wl w ra) r rb) xp tx));
          [cbn; tauto|reflexivity|].
        apply (@szd_rotl rk (CL c n xp tx k) Red nw wl w Black nr ra r rb). revert SZ. cbn [plug].
        apply szd_ext; [cbn; tauto|reflexivity].
  - isb. assert (BR : is_black (colr (T Red nl la v lb)) = false) by reflexivity.
    eapply wp_frame_bind with (Q' := fun b h' => b = false /\ h' = h).
    { destruct (is_black (colr wr)).
      - go. apply wp_bindr. nob w (T Red nl la v lb). rewrite BR. apply wp_ret. auto.
      - apply wp_ret. auto. }
    intros b h' (-> & ->). go. nob w (T Red nl la v lb). rewrite BR. go.
    blk w (T Red nl la v lb).
    retat (plug k (T Black n (T c nw (T Black nl la v lb) w wr) xp tx)) F
          (plug k (T c n (T Black nw (T Red nl la v lb) w wr) xp tx)).
    eapply wp_frame_bind; [apply (rotate_right_spec rk _ _ _ _ _ _ _ _ _ _ W)|].
    clear W. intros u1 h1 W. cbv beta in W. apply wp_ret.
    eexists (CR _ _ wr xp (CR _ _ _ w k)). cbn [plug].
    split; [exact W|]. rewrite <- I. bhs. cbn in Nl. splits.
    + inord.
    + rewrite norr_plug. cbn. intuition discriminate.
    + rewrite bh_plug. exists (match c with Red => S j | Black => S (S j) end). split; auto.
      destruct c; repeat constructor; auto.
    + kbl KB k.
    + apply szd_rotr. revert SZ. apply szd_ext; [cbn; tauto|reflexivity].
Qed.
End Ext.
