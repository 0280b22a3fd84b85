(** An ordered index over a correct layer is a correct layer: the contract. *)
From Verif Require Import Prelude OrdModel OrdTree OrdHeap OrdRot OrdLink OrdExt3 OrdTrav Layer LayerBase OrdIdx OrdSpec OrdLook OrdPoint OrdLayer.
Set Implicit Arguments.
Local Notation size := OrdTree.size.

Section Ord.
Variables V K : Type.
Variable throws : nat -> bool.
Variable pick : list node -> node.
Variable dv : V.
Hypothesis pick_ok : forall l, ~ In (pick l) (null :: l).
Variable key : V -> K.
Variable lt : K -> K -> bool.
Variable uniq : bool.
Variable rk : bool.
Variable hd : node.
Variable junk : cell.
Variable L : Layer V.
Variable S : Spec V.
Variable rep : St L -> AV S -> Prop.
Variable shell : St L -> Prop.
Hypothesis O : OK throws pick dv hd L S rep shell.
Hypothesis W : swo lt.
Notation OM := (OM L).
Notation val := (val dv).
Notation sorted := (sorted key lt uniq).
Notation adm := (adm key lt uniq).
Notation last_adm := (last_adm key lt uniq).
Notation has := (has rk hd).
Notation LO := (ordered throws key lt uniq rk hd junk L).
Notation SO := (cons_spec (ord_kind key lt uniq hd) S).
Notation orep := (@ord_rep V rk hd L S rep).
Notation oshell := (@ord_shell V hd L shell).

Lemma hint_split p l lk : Permutation l lk -> p = hd \/ In p lk -> exists h1 h2, l = h1 ++ h2 /\ p = List.hd hd h2.
Proof.
  intros P [->|I].
  - exists l, []. now rewrite app_nil_r.
  - symmetry in P. apply (Permutation_in _ P) in I. apply in_split in I. destruct I as (h1 & h2 & ->).
    exists h1, (p :: h2). auto.
Qed.

Definition at_hint (vl : node -> V) (hint : option node) (k : K) (l l1 l2 : list node) : Prop :=
  match hint with
  | None => last_adm vl k l1 l2
  | Some p => adm vl k l1 l2 /\ exists h1 h2, l = h1 ++ h2 /\ p = List.hd hd h2 /\ nearest lt uniq key vl k l h1 l1
  end.
Lemma at_hint_adm vl hint k l l1 l2 : at_hint vl hint k l l1 l2 -> adm vl k l1 l2.
Proof. destruct hint; cbn; [tauto|]. now apply last_adm_adm. Qed.

Lemma point_spec h s t hs hint k lk :
  tat hd hs h t [] -> colr t = Black -> size t = cget L s ->
  (forall y, In y (inorder t) -> live (bget L s) y) ->
  sorted (val (bget L s)) (inorder t) -> Permutation (inorder t) lk -> hint_ok hd hint lk ->
  Ro throws h s (match hint with None => link_point throws key lt uniq hd L k
                 | Some p => hinted_link_point throws key lt uniq hd L k p end)
     (pt dv key lt uniq hd L s t k (at_hint (val (bget L s)) hint k (inorder t))).
Proof.
  intros TA CB Sz LV So P H. destruct hint as [p|]; cbn in H.
  - destruct (hint_split P H) as (h1 & h2 & E1 & E2).
    eapply Ro_conseq; [eapply hinted_link_point_spec with (1 := O) (2 := W) (3 := TA); eauto; lia|].
    intros (ok & sd & pos) Hp. destruct ok; cbn in *; auto.
    destruct Hp as (c & -> & -> & -> & A & N). exists c. splits; auto. exists h1, h2. auto.
  - eapply link_point_spec with (1 := O) (2 := W) (3 := TA); auto. lia.
Qed.

Lemma ord_insert : forall s a lk v hint x var,
    orep s a -> inv hd (bget LO s) (els SO a) lk -> cget LO s = length lk ->
    aok SO (val (bget LO s)) a -> hint_ok hd hint lk -> ready SO (bget LO s) var x v a lk ->
    wp (l_insert LO v hint x var)
       (fun r s' => exists a', orep s' a' /\ cget LO s' = cget LO s /\
          quiet throws (tk (bget LO s)) (tk (bget LO s')) /\
          ((fst r = snd r /\ inserted pick (bget LO s) (bget LO s') var x v (snd r) /\
            (forall y, In y lk -> ~ aconf SO v (val (bget LO s) y)) /\
            ains SO var (val (bget LO s')) hint a (snd r) a' /\ aok SO (val (bget LO s')) a') \/
           (fst r <> snd r /\ snd r = x /\ In (fst r) lk /\ aconf SO v (val (bget LO s) (fst r)) /\
            asame SO (val (bget LO s)) a a' /\ mem (bget LO s') = mem (bget LO s))))
       (fun s' => exists a', orep s' a' /\ cget LO s' = cget LO s /\ asame SO (val (bget LO s)) a a' /\
          mem (bget LO s') = mem (bget LO s) /\ blown throws (tk (bget LO s)) (tk (bget LO s')))
       s.
Proof.
  intros (h, s) (l, a) lk v hint x var ((t & hs & TA & R & I) & Rp) Iv Cg (So & Ao) H Rd.
  cbn [fst snd] in *. change (bget LO (h, s)) with (bget L s) in *. change (cget LO (h, s)) with (cget L s) in *.
  change (els SO (l, a)) with (l :: els S a) in Iv. change (kok (ord_kind key lt uniq hd)) with sorted in So.
  assert (Pl := inv_hd Iv). assert (Iv' := inv_tl Iv). subst l.
  assert (CB : colr t = Black) by (destruct R as (_ & _ & CB & _); auto).
  assert (Sz : size t = cget L s) by (rewrite size_inorder, Cg; now apply Permutation_length).
  assert (LV : forall y, In y (inorder t) -> live (bget L s) y).
  { intros y Iy. apply (i_live Iv). eapply Permutation_in; eauto. }
  assert (Rd' : ready S (bget L s) var x v a lk) by (destruct var; exact Rd).
  cbn [l_insert ordered]. unfold o_insert_. eapply (Ro_wp O).
  { eapply point_spec; eauto. }
  2:{ intros n B. exists (inorder t, a). cbn [ordered bget cget snd fst]. splits.
      - split; [exists t, hs; auto|]. now apply (o_repb O).
      - apply (adv_cget O).
      - split; cbn; auto. apply (o_same O).
      - apply (adv_mem O).
      - now rewrite (adv_tk O). }
  intros (ok & sd & pos) n Hp q. destruct ok.
  2:{ apply wp_ret. exists (inorder t, a). cbn [ordered bget cget snd fst].
      destruct Hp as (Ip & U & C1 & C2).
      assert (Ipl : In pos lk) by (eapply Permutation_in; eauto). splits.
      - split; [exists t, hs; auto|]. now apply (o_repb O).
      - apply (adv_cget O).
      - now rewrite (adv_tk O).
      - right. splits; auto.
        + eapply (ready_fresh throws) with (1 := Iv) (2 := Rd'); auto.
        + left. split; auto.
        + split; cbn; auto. apply (o_same O).
        + apply (adv_mem O). }
  destruct Hp as (c & -> & -> & -> & A).
  assert (Fe : val (bget L (adv L n s)) = val (bget L s)) by (unfold Layer.val; now rewrite (adv_mem O)).
  apply wp_bind, wp_sup. eapply wp_conseq.
  { apply (o_insert O) with (a := a) (lk := lk).
    - now apply (o_repb O).
    - eapply inv_mem; [|exact Iv']. symmetry. apply (adv_mem O).
    - now rewrite (adv_cget O).
    - now rewrite Fe.
    - exact H.
    - destruct var; cbn in *; rewrite ?(adv_mem O); auto. }
  - intros (res, x') s' (a' & Rs & Cs & qs & D). cbn [fst snd] in D. rewrite Fe in D.
    rewrite (adv_cget O) in Cs. rewrite (adv_tk O) in qs.
    assert (Q1 : quiet throws (tk (bget L s)) (tk (bget L s'))) by (eapply quiet_trans; eauto).
    destruct D as [(-> & Ins & Nc & Ai & Ao')|(Nr & -> & Ir & Cf & Sm & Mm)].
    + rewrite Nat.eqb_refl.
      assert (Ins' : inserted pick (bget L s) (bget L s') var x v x').
      { destruct var; cbn in *; rewrite (adv_mem O) in Ins; auto. }
      destruct (inserted_ok pick dv pick_ok _ _ _ _ _ _ _ Iv Rd' Ins') as (E1 & E2 & Fr).
      set (l1 := lefts c) in *. set (l2 := rights c) in *.
      assert (Il : inorder (plug c E) = l1 ++ l2) by (rewrite inorder_plug; reflexivity).
      assert (E1' : forall y, In y (l1 ++ l2) -> val (bget L s) y = val (bget L s') y).
      { intros y Iy. symmetry. apply E1. eapply Permutation_in; [exact Pl|]. now rewrite Il. }
      assert (A1 := at_hint_adm _ _ _ _ _ _ A).
      apply wp_bind. apply wp_bind. apply wp_own. unfold wp at 1.
      apply wp_conseq with (Q := fun (_ : unit) st => snd st = s' /\ has (fst st) (l1 ++ x' :: l2)) (E := fun _ => False); [| |easy].
      2:{ intros [] (h', s2) (E3 & Hh). cbn in E3, Hh. subst s2. apply wp_ret.
          exists (l1 ++ x' :: l2, a'). cbn [ordered bget cget snd fst]. splits; auto.
          - split; auto.
          - left. splits; auto.
            + intros y Iy [C|C]; [|now apply (Nc y Iy)].
              change (o_conf key lt uniq v (val (bget L s) y)) in C. eapply conf_not_adm; [|exact C|exact A1]. rewrite <- Il. eapply Permutation_in; [symmetry; exact Pl|auto].
            + split; auto. cbn. exists l1, l2. splits; auto. rewrite E2. destruct hint as [p|]; cbn in A |- *.
              * destruct A as (_ & h1 & h2 & Eh & Ep & Nr). split; [eapply adm_ext; eauto|].
                exists h1, h2. splits; auto. intros m1 m2 Em Am. apply Nr with (m2 := m2); auto.
                eapply adm_ext; [|exact Am]. intros y Iy. symmetry. apply E1'. now rewrite <- Il, Em.
              * eapply last_adm_ext; eauto.
            + split; auto. cbn. apply adm_sorted. rewrite E2. split; [|eapply adm_ext; eauto].
              rewrite Il in So. eapply sorted_ext; eauto. }
      cut (wp (bind (tree L (fun f => link rk hd f x' (kside c) (cpar hd c))) (@ret _ _))
             (fun (_ : unit) st => snd st = s' /\ has (fst st) (l1 ++ x' :: l2)) (fun _ => False)
             (upd h x' (Some junk), s')).
      { unfold wp, bind, ret. destruct (tree L _ _); auto. }
      eapply wp_link.
      * apply tat_add; [exact TA|]. cbn. rewrite app_nil_r. intros [F|[F|F]].
        -- apply Fr; cbn; auto.
        -- apply Fr; cbn; auto.
        -- apply Fr. right. right. eapply Permutation_in; eauto.
      * exact R.
      * lia.
      * intros h' Hh. apply wp_ret. auto.
    + assert (Nr' := Nr). apply Nat.eqb_neq in Nr'. rewrite Nr'. apply wp_bind, wp_ret, wp_ret.
      exists (inorder (plug c E), a'). cbn [ordered bget cget snd fst]. splits; auto.
      * split; auto. exists (plug c E), hs. auto.
      * right. splits; auto.
        -- now right.
        -- split; cbn; auto.
        -- now rewrite Mm, (adv_mem O).
  - intros s' (a' & Rs & Cs & Sm & Mm & B). rewrite (adv_cget O) in Cs. rewrite (adv_tk O) in B. rewrite (adv_mem O) in Mm. rewrite Fe in Sm.
    exists (inorder (plug c E), a'). cbn [ordered bget cget snd fst]. splits; auto.
    + split; auto. exists (plug c E), hs. auto.
    + split; cbn; auto.
    + eapply blown_trans; eauto.
Qed.

Lemma ord_extract s a x :
    orep s a -> Forall (fun l => NoDup l /\ In x l /\ length l <= Datatypes.S (cget LO s)) (els SO a) ->
    wp (l_extract LO x)
       (fun _ s' => orep s' (arem SO x a) /\ cget LO s' = cget LO s /\ bget LO s' = bget LO s)
       (fun _ => False) s.
Proof.
  destruct s as (h, s), a as (l, a). intros ((t & hs & TA & R & I) & Rp) F. cbn [fst snd] in *.
  change (els SO (l, a)) with (l :: els S a) in F. inversion F as [|? ? (ND & Ix & Sz) F']; subst.
  cbn [l_extract ordered cget bget snd fst] in *. unfold o_extract_.
  apply in_split in Ix. destruct Ix as (l1 & l2 & E1).
  eapply wp_unlink; eauto; [now rewrite size_inorder|]. intros h' t' cx T' R' I'.
  apply wp_sup. eapply wp_conseq; [apply (o_extract O) with (a := a); auto| |easy].
  intros [] s' (Rs & Cs & Bs). cbn [fst snd]. splits; auto. split; auto. cbn [fst snd arem cons_spec krem ord_kind].
  rewrite E1 in ND |- *. rewrite remove_mid by auto. exists t', hs. splits; auto. eapply tat_drop; eauto.
Qed.

Lemma ord_delete s a l ls :
    orep s a -> els SO a = l :: ls -> length l <= cget LO s -> NoDup (map fst (mem (bget LO s))) ->
    (forall x, In x l -> live (bget LO s) x) ->
    wp (l_delete_all LO)
       (fun _ s' => oshell s' /\ cget LO s' = cget LO s /\ tk (bget LO s') = tk (bget LO s) /\
          mem (bget LO s') = filter (fun p => negb (existsb (Nat.eqb (fst p)) l)) (mem (bget LO s)))
       (fun _ => False) s.
Proof.
  destruct s as (h, s), a as (l0, a). intros ((t & hs & TA & R & I) & Rp) E Sz ND LV. cbn [fst snd] in *.
  change (els SO (l0, a)) with (l0 :: els S a) in E. injection E as -> _.
  cbn [l_delete_all ordered cget bget snd fst] in *. unfold o_delete_all_, bound.
  assert (Hh : h hd = Some (hcell hd hs t)) by (eapply wfc_get; [exact TA|now left]).
  apply wp_bind, wp_own. unfold wp at 1, gp, rd. rewrite Hh. cbn [cp hcell].
  apply wp_bind, wp_bind, wp_sup. unfold Layer.size, wp at 1. apply wp_ret.
  eapply wp_conseq; [eapply (del_all_spec O t hd [(hd, hcell hd hs t)])| |easy].
  - eapply wfc_perm; [exact TA|]. cperm.
  - intros y Iy. apply LV. now rewrite <- I.
  - rewrite size_inorder, I. lia.
  - intros [] (h', s') (W' & E'). cbn [fst snd] in W', E'. subst s'. cbn [fst snd].
    rewrite (o_bb O), (o_cb O). cbn. splits; auto.
    + split; [|split].
      * exists (hcell hd hs t). eapply wfc_get; [exact W'|now left].
      * eapply wfc_nonnull; [exact W'|now left].
      * cbn. apply (o_shellb O). now apply (o_shell O) with (a := a).
    + now rewrite I.
Qed.

Lemma ord_clear s : oshell s ->
    wp (l_clear LO)
       (fun _ s' => (exists a, orep s' a /\ Forall (eq []) (els SO a) /\ forall vl, aok SO vl a) /\
          cget LO s' = cget LO s /\ bget LO s' = bget LO s)
       (fun _ => False) s.
Proof.
  destruct s as (h, s). intros ((c & Hc) & Nh & Sh). cbn [fst snd] in *.
  cbn [l_clear ordered cget bget snd fst] in *. unfold o_clear_.
  apply wp_bind, wp_sup. eapply wp_conseq; [apply (o_clear O); eauto| |easy].
  intros [] s' ((a & Rs & Fa & Ok) & Cs & Bs). apply wp_own. cbn [fst].
  unfold wp, empty_initialize, bind, sc, sp, sl, sr, wr. rewrite Hc. cbn. rewrite !upd_eq. cbn.
  splits; auto. exists ([], a). splits.
  - split; auto. exists E, (cs c). splits; auto.
    + split; cbn.
      * constructor; [cbn; tauto|]. constructor; [cbn; tauto|constructor].
      * constructor; auto. cbn. apply upd_eq.
    + split; cbn; auto. splits; auto. exists 0. constructor.
  - constructor; auto.
  - intros vl. split; auto. constructor.
Qed.

Lemma ord_replace s a lk v x :
    orep s a -> inv hd (bget LO s) (els SO a) lk -> cget LO s = length lk ->
    aok SO (val (bget LO s)) a -> In x lk ->
    wp (l_replace LO v x)
       (fun r s' => cget LO s' = cget LO s /\ quiet throws (tk (bget LO s)) (tk (bget LO s')) /\
          if r : bool then
            mem (bget LO s') = mset (mem (bget LO s)) x (Some v) /\
            (forall y, In y lk -> y <> x -> ~ aconf SO v (val (bget LO s) y)) /\
            exists a', orep s' a' /\ amov SO (val (bget LO s')) x a a' /\ aok SO (val (bget LO s')) a'
          else
            mem (bget LO s') = mem (bget LO s) /\ orep s' a /\
            exists y, In y lk /\ y <> x /\ aconf SO v (val (bget LO s) y))
       (fun s' => orep s' a /\ cget LO s' = cget LO s /\ mem (bget LO s') = mem (bget LO s) /\
          blown throws (tk (bget LO s)) (tk (bget LO s')))
       s.
Proof.
  destruct s as (h, s), a as (l, a). intros (Hh & Rp) Iv Cg (So & Ao) Ix. cbn [fst snd] in *.
  change (bget LO (h, s)) with (bget L s) in *. change (cget LO (h, s)) with (cget L s) in *.
  change (els SO (l, a)) with (l :: els S a) in Iv. change (kok (ord_kind key lt uniq hd)) with sorted in So.
  assert (Pl := inv_hd Iv). assert (Iv' := inv_tl Iv). assert (Pl' := Permutation_sym Pl).
  assert (Ix' : In x l) by (eapply Permutation_in; eauto).
  apply in_split in Ix'. destruct Ix' as (l1 & l2 & ->).
  assert (LV : forall y, In y (l1 ++ x :: l2) -> live (bget L s) y).
  { intros y Iy. apply (i_live Iv). eapply Permutation_in; eauto. }
  assert (ND : NoDup (l1 ++ x :: l2)) by (eapply NoDup_perm; [exact Pl'|apply (i_nd Iv)]).
  assert (Fe : forall n, val (bget L (adv L n s)) = val (bget L s)) by (intros; unfold Layer.val; now rewrite (adv_mem O)).
  assert (So2 : sorted (val (bget L s)) (l1 ++ l2)) by (now apply adm_sorted in So).
  assert (Nx : forall y, In y (l1 ++ l2) -> In y lk /\ y <> x).
  { intros y Iy. split.
    - eapply Permutation_in; [exact Pl|]. rewrite in_app_iff in *. cbn. tauto.
    - intros ->. apply NoDup_remove_2 in ND. auto. }
  cbn [l_replace ordered]. unfold o_replace_. eapply wp_conseq.
  { eapply (o_move_spec O W) with (l1 := l1) (l2 := l2)
      (Qm := fun n r s' => quiet throws n (tk (bget L s')) /\
         if r : bool then
            mem (bget L s') = mset (mem (bget L s)) x (Some v) /\
            (forall y, In y lk -> y <> x -> ~ aconf S v (val (bget L s) y)) /\
            exists a', rep s' a' /\ amov S (val (bget L s')) x a a' /\ aok S (val (bget L s')) a'
          else
            mem (bget L s') = mem (bget L s) /\ rep s' a /\
            exists y, In y lk /\ y <> x /\ aconf S v (val (bget L s) y))
      (Em := fun n s' => rep s' a /\ mem (bget L s') = mem (bget L s) /\ blown throws n (tk (bget L s'))); auto.
    - rewrite Cg. now apply Permutation_length.
    - intros n q. eapply wp_conseq.
      { apply (o_replace O) with (a := a) (lk := lk) (v := v) (x := x); auto.
        - now apply (o_repb O).
        - eapply inv_mem; [|exact Iv']. symmetry. apply (adv_mem O).
        - now rewrite (adv_cget O).
        - now rewrite Fe. }
      + intros r s' (C & Q & H). rewrite (adv_cget O) in C. rewrite (adv_tk O) in Q. rewrite Fe, (adv_mem O) in H. auto.
      + intros s' (Ra & C & M & B). rewrite (adv_cget O) in C. rewrite (adv_tk O) in B. rewrite (adv_mem O) in M. auto. }
  - intros r (h', s') (n & q & D). cbn [ordered cget bget fst snd] in *.
    destruct D as [(-> & (y & Iy & Cy) & -> & Hh')|(C & (Q & H) & D)].
    + rewrite (adv_cget O), (adv_tk O), (adv_mem O). splits; auto.
      * split; auto. now apply (o_repb O).
      * exists y. destruct (Nx y Iy). splits; auto. now left.
    + splits; auto; [eapply quiet_trans; eauto|]. destruct r.
      * destruct H as (M & Nc & a' & Ra & Am & Aa). destruct D as (l' & Hh' & Mv).
        assert (Ey : forall y, In y (l1 ++ l2) -> val (bget L s) y = val (bget L s') y).
        { intros y Iy. destruct (Nx y Iy) as (_ & N). apply Nat.eqb_neq in N. unfold Layer.val. now rewrite M, look_mset, N. }
        assert (Ex : val (bget L s') x = v).
        { unfold Layer.val. rewrite M, look_mset, Nat.eqb_refl. destruct (i_live Iv x Ix) as (w & ->). reflexivity. }
        destruct (moved_mov hd W _ ND So2 Ey Ex Mv) as (Om & So' & Nc' & P').
        splits; auto.
        -- intros y Iy N [Cy|Cy].
           ++ apply (Nc' y); auto. eapply Permutation_in; eauto.
           ++ apply (Nc y); auto.
        -- exists (l', a'). splits; auto; [split; auto|split; auto|split; auto].
      * destruct H as (M & Ra & y & Iy & N & Cy). splits; auto; [split; auto|]. exists y. splits; auto. now right.
  - intros (h', s') (Hh' & D). cbn [ordered cget bget fst snd] in *.
    destruct D as [(n & B & ->)|(n & q & C & Ra & M & B)].
    + rewrite (adv_cget O), (adv_tk O), (adv_mem O). splits; auto. split; auto. now apply (o_repb O).
    + splits; auto; [split; auto|]. eapply blown_trans; eauto.
Qed.

Lemma sorted_rem x vl l : sorted vl l -> sorted vl (remove Nat.eq_dec x l).
Proof.
  induction 1 as [|y l H IH F]; cbn; [constructor|].
  destruct (Nat.eq_dec x y); auto. constructor; auto. rewrite Forall_forall in *. intros z I.
  apply F. now apply in_remove in I.
Qed.

Lemma ord_modify s a lk x :
    orep s a -> inv hd (bget LO s) (els SO a) lk -> cget LO s = length lk ->
    nearly SO (val (bget LO s)) x a -> In x lk ->
    wp (l_modify LO x)
       (fun r s' => cget LO s' = cget LO s /\ quiet throws (tk (bget LO s)) (tk (bget LO s')) /\
          mem (bget LO s') = mem (bget LO s) /\
          if r : bool then
            (forall y, In y lk -> y <> x -> ~ aconf SO (val (bget LO s) x) (val (bget LO s) y)) /\
            exists a', orep s' a' /\ amov SO (val (bget LO s)) x a a' /\ aok SO (val (bget LO s)) a'
          else
            orep s' (arem SO x a) /\
            exists y, In y lk /\ y <> x /\ aconf SO (val (bget LO s) x) (val (bget LO s) y))
       (fun s' => orep s' (arem SO x a) /\ cget LO s' = cget LO s /\ mem (bget LO s') = mem (bget LO s) /\
          blown throws (tk (bget LO s)) (tk (bget LO s')))
       s.
Proof.
  destruct s as (h, s), a as (l, a). intros (Hh & Rp) Iv Cg (v0 & Ev0 & So & Ao0) Ix. cbn [fst snd] in *.
  change (bget LO (h, s)) with (bget L s) in *. change (cget LO (h, s)) with (cget L s) in *.
  change (els SO (l, a)) with (l :: els S a) in Iv.
  assert (Ao : nearly S (val (bget L s)) x a) by (exists v0; auto).
  apply (sorted_rem x) in So.
  assert (Pl := inv_hd Iv). assert (Pl' := Permutation_sym Pl).
  assert (Ix' : In x l) by (eapply Permutation_in; eauto).
  apply in_split in Ix'. destruct Ix' as (l1 & l2 & ->).
  assert (ND : NoDup (l1 ++ x :: l2)) by (eapply NoDup_perm; [exact Pl'|apply (i_nd Iv)]).
  assert (Er : remove Nat.eq_dec x (l1 ++ x :: l2) = l1 ++ l2) by now apply remove_mid.
  rewrite Er in So. apply sorted_ext with (vl' := val (bget L s)) in So; [|intros y Iy; apply Ev0; intros ->; now apply NoDup_remove_2 in ND].
  assert (Nx : forall y, In y (l1 ++ l2) -> In y lk /\ y <> x).
  { intros y Iy. split.
    - eapply Permutation_in; [exact Pl|]. rewrite in_app_iff in *. cbn. tauto.
    - intros ->. apply NoDup_remove_2 in ND. auto. }
  cbn [l_modify ordered]. eapply wp_conseq; [eapply (o_modify_spec O W) with (l1 := l1) (l2 := l2) (a := a); eauto| |].
  - intros r (h', s') (C & Q & M & D). cbn [ordered cget bget fst snd] in *. splits; auto. destruct r.
    + destruct D as ((l' & Hh' & Mv) & Nc & a' & Ra & Am & Aa).
      destruct (moved_mov hd W _ ND So (fun y _ => eq_refl) eq_refl Mv) as (Om & So' & Nc' & P').
      splits.
      * intros y Iy N [Cy|Cy].
        -- apply (Nc' y); auto. eapply Permutation_in; eauto.
        -- apply (Nc y); auto.
      * exists (l', a'). splits; auto; [split; auto|split; auto|split; auto].
    + destruct D as (Hh' & Ra & D). splits.
      * split; auto. cbn. rewrite Er. auto.
      * destruct D as [(y & Iy & Cy)|(y & Iy & N & Cy)]; exists y.
        -- destruct (Nx y Iy). splits; auto. now left.
        -- splits; auto. now right.
  - intros (h', s') (Hh' & Ra & C & M & B). cbn [ordered cget bget fst snd] in *. splits; auto. split; auto. cbn. rewrite Er. auto.
Qed.

Lemma ord_modify_rb s a lk x :
    orep s a -> inv hd (bget LO s) (els SO a) lk -> cget LO s = length lk ->
    nearly SO (val (bget LO s)) x a -> In x lk ->
    wp (l_modify_rb LO x)
       (fun r s' => cget LO s' = cget LO s /\ quiet throws (tk (bget LO s)) (tk (bget LO s')) /\
          mem (bget LO s') = mem (bget LO s) /\
          if r : bool then
            (forall y, In y lk -> y <> x -> ~ aconf SO (val (bget LO s) x) (val (bget LO s) y)) /\
            exists a', orep s' a' /\ amov SO (val (bget LO s)) x a a' /\ aok SO (val (bget LO s)) a'
          else
            orep s' a /\ exists y, In y lk /\ y <> x /\ aconf SO (val (bget LO s) x) (val (bget LO s) y))
       (fun s' => orep s' a /\ cget LO s' = cget LO s /\ mem (bget LO s') = mem (bget LO s) /\
          blown throws (tk (bget LO s)) (tk (bget LO s')))
       s.
Proof.
  destruct s as (h, s), a as (l, a). intros (Hh & Rp) Iv Cg (v0 & Ev0 & So & Ao0) Ix. cbn [fst snd] in *.
  change (bget LO (h, s)) with (bget L s) in *. change (cget LO (h, s)) with (cget L s) in *.
  change (els SO (l, a)) with (l :: els S a) in Iv.
  assert (Ao : nearly S (val (bget L s)) x a) by (exists v0; auto).
  apply (sorted_rem x) in So.
  assert (Pl := inv_hd Iv). assert (Iv' := inv_tl Iv). assert (Pl' := Permutation_sym Pl).
  assert (Ix' : In x l) by (eapply Permutation_in; eauto).
  apply in_split in Ix'. destruct Ix' as (l1 & l2 & ->).
  assert (ND : NoDup (l1 ++ x :: l2)) by (eapply NoDup_perm; [exact Pl'|apply (i_nd Iv)]).
  assert (Er : remove Nat.eq_dec x (l1 ++ x :: l2) = l1 ++ l2) by now apply remove_mid.
  rewrite Er in So. apply sorted_ext with (vl' := val (bget L s)) in So; [|intros y Iy; apply Ev0; intros ->; now apply NoDup_remove_2 in ND].
  assert (LV : forall y, In y (l1 ++ x :: l2) -> live (bget L s) y).
  { intros y Iy. apply (i_live Iv). eapply Permutation_in; eauto. }
  assert (Fe : forall n, val (bget L (adv L n s)) = val (bget L s)) by (intros; unfold Layer.val; now rewrite (adv_mem O)).
  assert (Nx : forall y, In y (l1 ++ l2) -> In y lk /\ y <> x).
  { intros y Iy. split.
    - eapply Permutation_in; [exact Pl|]. rewrite in_app_iff in *. cbn. tauto.
    - intros ->. apply NoDup_remove_2 in ND. auto. }
  cbn [l_modify_rb ordered]. unfold o_modify_rb_. apply (wp_oval O); [apply (i_live Iv); auto|].
  set (v := val (bget L s) x) in *. eapply wp_conseq.
  { eapply (o_move_spec O W) with (l1 := l1) (l2 := l2)
      (Qm := fun n r s' => quiet throws n (tk (bget L s')) /\ mem (bget L s') = mem (bget L s) /\
         if r : bool then
            (forall y, In y lk -> y <> x -> ~ aconf S v (val (bget L s) y)) /\
            exists a', rep s' a' /\ amov S (val (bget L s)) x a a' /\ aok S (val (bget L s)) a'
          else
            rep s' a /\ exists y, In y lk /\ y <> x /\ aconf S v (val (bget L s) y))
      (Em := fun n s' => rep s' a /\ mem (bget L s') = mem (bget L s) /\ blown throws n (tk (bget L s'))); auto.
    - rewrite Cg. now apply Permutation_length.
    - intros n q. eapply wp_conseq.
      { apply (o_modify_rb O) with (a := a) (lk := lk) (x := x); auto.
        - now apply (o_repb O).
        - eapply inv_mem; [|exact Iv']. symmetry. apply (adv_mem O).
        - now rewrite (adv_cget O).
        - now rewrite Fe. }
      + intros r s' (C & Q & M & H). rewrite (adv_cget O) in C. rewrite (adv_tk O) in Q. rewrite Fe in H. rewrite (adv_mem O) in M. auto.
      + intros s' (Ra & C & M & B). rewrite (adv_cget O) in C. rewrite (adv_tk O) in B. rewrite (adv_mem O) in M. auto. }
  - intros r (h', s') (n & q & D). cbn [ordered cget bget fst snd] in *.
    destruct D as [(-> & (y & Iy & Cy) & -> & Hh')|(C & (Q & M & H) & D)].
    + rewrite (adv_cget O), (adv_tk O), (adv_mem O). splits; auto.
      * split; auto. now apply (o_repb O).
      * exists y. destruct (Nx y Iy). splits; auto. now left.
    + splits; auto; [eapply quiet_trans; eauto|]. destruct r.
      * destruct H as (Nc & a' & Ra & Am & Aa). destruct D as (l' & Hh' & Mv).
        destruct (moved_mov hd W _ ND So (fun y _ => eq_refl) eq_refl Mv) as (Om & So' & Nc' & P').
        splits; auto.
        -- intros y Iy N [Cy|Cy].
           ++ apply (Nc' y); auto. eapply Permutation_in; eauto.
           ++ apply (Nc y); auto.
        -- exists (l', a'). splits; auto; [split; auto|split; auto|split; auto].
      * destruct H as (Ra & y & Iy & N & Cy). splits; auto; [split; auto|]. exists y. splits; auto. now right.
  - intros (h', s') (Hh' & D). cbn [ordered cget bget fst snd] in *.
    destruct D as [(n & B & ->)|(n & q & C & Ra & M & B)].
    + rewrite (adv_cget O), (adv_tk O), (adv_mem O). splits; auto. split; auto. now apply (o_repb O).
    + splits; auto; [split; auto|]. eapply blown_trans; eauto.
Qed.

Lemma ord_check_rb s a lk x :
    orep s a -> inv hd (bget LO s) (els SO a) lk -> cget LO s = length lk ->
    nearly SO (val (bget LO s)) x a -> In x lk ->
    wp (l_check_rb LO x)
       (fun r s' => orep s' a /\ cget LO s' = cget LO s /\ quiet throws (tk (bget LO s)) (tk (bget LO s')) /\
          mem (bget LO s') = mem (bget LO s) /\ (r = true -> aok SO (val (bget LO s)) a) /\
          (aok SO (val (bget LO s)) a -> r = true))
       (fun s' => orep s' a /\ cget LO s' = cget LO s /\ mem (bget LO s') = mem (bget LO s) /\
          blown throws (tk (bget LO s)) (tk (bget LO s')))
       s.
Proof.
  destruct s as (h, s), a as (l, a). intros (Hh & Rp) Iv Cg (v0 & Ev0 & So & Ao0) Ix. cbn [fst snd] in *.
  change (bget LO (h, s)) with (bget L s) in *. change (cget LO (h, s)) with (cget L s) in *.
  change (els SO (l, a)) with (l :: els S a) in Iv.
  assert (Ao : nearly S (val (bget L s)) x a) by (exists v0; auto).
  apply (sorted_rem x) in So.
  assert (Pl := inv_hd Iv). assert (Iv' := inv_tl Iv). assert (Pl' := Permutation_sym Pl).
  assert (Ix' : In x l) by (eapply Permutation_in; eauto).
  apply in_split in Ix'. destruct Ix' as (l1 & l2 & ->).
  assert (ND : NoDup (l1 ++ x :: l2)) by (eapply NoDup_perm; [exact Pl'|apply (i_nd Iv)]).
  assert (Er : remove Nat.eq_dec x (l1 ++ x :: l2) = l1 ++ l2) by now apply remove_mid.
  rewrite Er in So. apply sorted_ext with (vl' := val (bget L s)) in So; [|intros y Iy; apply Ev0; intros ->; now apply NoDup_remove_2 in ND].
  assert (LV : forall y, In y (l1 ++ x :: l2) -> live (bget L s) y).
  { intros y Iy. apply (i_live Iv). eapply Permutation_in; eauto. }
  assert (Fe : forall n, val (bget L (adv L n s)) = val (bget L s)) by (intros; unfold Layer.val; now rewrite (adv_mem O)).
  destruct Hh as (t & hs & TA & R & I).
  assert (CB : colr t = Black) by (destruct R as (_ & _ & CB & _); auto).
  assert (Sz : size t = cget L s) by (rewrite size_inorder, I, Cg; now apply Permutation_length).
  cbn [l_check_rb ordered]. unfold o_check_rb_. apply (wp_oval O); [apply (i_live Iv); auto|].
  eapply (Ro_wp O).
  { eapply in_place_spec with (1 := O) (2 := W) (3 := TA) (l1 := l1) (l2 := l2); auto; rewrite ?I; auto; lia. }
  2:{ intros n B. cbn [ordered cget bget fst snd]. rewrite (adv_cget O), (adv_tk O), (adv_mem O). splits; auto.
      split; [exists t, hs; auto|now apply (o_repb O)]. }
  intros b n Hb q.
  assert (Iff : sorted (val (bget L s)) (l1 ++ x :: l2) <-> b = true) by (rewrite Hb, adm_sorted; tauto).
  destruct b.
  - apply wp_sup. eapply wp_conseq.
    { apply (o_check_rb O) with (a := a) (lk := lk) (x := x); auto.
      - now apply (o_repb O).
      - eapply inv_mem; [|exact Iv']. symmetry. apply (adv_mem O).
      - now rewrite (adv_cget O).
      - now rewrite Fe. }
    + intros r s' (Ra & C & Q & M & H1 & H2). rewrite (adv_cget O) in C. rewrite (adv_tk O) in Q. rewrite Fe in *. rewrite (adv_mem O) in M.
      cbn [ordered cget bget fst snd]. splits; auto.
      * split; auto. exists t, hs. auto.
      * eapply quiet_trans; eauto.
      * intros E. split; [now apply Iff|auto].
      * intros (_ & E). auto.
    + intros s' (Ra & C & M & B). rewrite (adv_cget O) in C. rewrite (adv_tk O) in B. rewrite (adv_mem O) in M.
      cbn [ordered cget bget fst snd]. splits; auto.
      * split; auto. exists t, hs. auto.
      * eapply blown_trans; eauto.
  - apply wp_ret. cbn [ordered cget bget fst snd]. rewrite (adv_cget O), (adv_tk O), (adv_mem O). splits; auto.
    + split; [exists t, hs; auto|now apply (o_repb O)].
    + discriminate.
    + intros (E & _). now apply Iff in E.
Qed.

Theorem ordered_ok : OK throws pick dv hd LO SO orep oshell.
Proof.
  split.
  - intros b (h, s). cbn. apply (o_bb O).
  - intros (h, s). cbn. now rewrite (o_gs O).
  - intros b b' (h, s). cbn. now rewrite (o_ss O).
  - intros n (h, s). cbn. apply (o_bc O).
  - intros b (h, s). cbn. apply (o_cb O).
  - intros n (h, s). cbn. apply (o_cc O).
  - intros b (h, s) a (H & R). split; auto. now apply (o_repb O).
  - intros n (h, s) a (H & R). split; auto. now apply (o_repc O).
  - intros b (h, s) (H & N & R). split; [|split]; auto. cbn. now apply (o_shellb O).
  - intros n (h, s) (H & N & R). split; [|split]; auto. cbn. now apply (o_shellc O).
  - intros (h, s) a ((t & hs & TA & _) & R). split; [|split].
    + exists (hcell hd hs t). eapply wfc_get; [exact TA|now left].
    + eapply wfc_nonnull; [exact TA|now left].
    + now apply (o_shell O) with (a := snd a).
  - intros vl vl' (l, a) (H & R) E. split.
    + cbn. eapply sorted_ext; [|exact H]. intros y I. apply (E y l); cbn; auto.
    + cbn. eapply (o_ext O); [exact R|]. intros y l' I J. apply (E y l'); cbn; auto.
  - intros vl x (l, a) (H & R). split; cbn; [|now apply (o_okrem O)].
    now apply sorted_rem.
  - intros (h, s) (l, a) x (H & R). cbn. f_equal. eapply (o_elrem O); eauto.
  - intros vl (l, a). split; cbn; auto. apply (o_same O).
  - intros vl (l, a) (l', a') (E & H). cbn in *. subst. constructor; auto. eapply (o_sameel O); eauto.
  - intros vl (l, a) (l', a') (E & H) (H1 & H2). cbn in *. subst. split; cbn; auto. eapply (o_sameok O); eauto.
  - intros vl vl' (l, a) (l', a') (E & H) Ev. cbn in *. split; auto. eapply (o_sameext O); [exact H|]. intros y l0 I J. apply (Ev y l0); auto.
  - intros var vl hint (l, a) x (l', a') ((l1 & l2 & E1 & E2 & _) & H). cbn in *. subst. constructor.
    + symmetry. apply Permutation_middle.
    + eapply (o_insel O); eauto.
  - intros vl x (l, a) (l', a') ((E & _) & H). cbn in *. f_equal; auto. eapply (o_movrem O); eauto.
  - intros vl x (l, a) (l', a') ((_ & E & _) & H). cbn in *. constructor; auto. eapply (o_movel O); eauto.
  - apply ord_insert.
  - apply ord_extract.
  - apply ord_delete.
  - apply ord_clear.
  - apply ord_replace.
  - apply ord_modify.
  - apply ord_modify_rb.
  - apply ord_check_rb.
Qed.
End Ord.
