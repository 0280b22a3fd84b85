(** A hashed index over a correct layer is a correct layer: the contract. *)
From Verif Require Import Prelude Layer LayerBase HashModel HashIdx HashHeap HashAlg HashLink HashLay HashOps HashRead HashUndo HashSpec HashPoint HashPlace HashRehash HashLayer.
Set Implicit Arguments.

Section Arr.
Variables V K : Type.
Variable key : V -> K.
Variable eq : K -> K -> bool.
Variable hash : K -> nat.
Variable uniq : bool.
Hypothesis HO : heq_ok eq hash.
Notation hok := (hok key eq hash uniq).
Notation classes := (classes key eq hash uniq).
Notation hconf := (hconf key eq uniq).

(** elements of an index without equivalent elements are not equivalent *)
Lemma hok_noconf vl n I x y : hok vl (n, I) -> In x (elems I) -> In y (elems I) -> y <> x -> ~ hconf (vl x) (vl y).
Proof.
  intros (G & EI & C & F) X Y Ny (U & E). cbn [fst snd] in *. subst I. rewrite elems_flat in *.
  apply in_elems in X as (c & Hc & X). apply in_elems in Y as (d & Hd & Y). rewrite Forall_forall in C.
  apply in_split in Hc as (G1 & G2 & ->). apply in_app_or in Hd as [Hd|[<-|Hd]].
  - apply in_split in Hd as (G3 & G4 & ->). apply fop_app in F as (_ & _ & F). 
    assert (A := F d c).
    assert (eq (key (vl y)) (key (vl x)) = false) as Z.
    { apply A; auto; [apply in_or_app; right; now left|now left]. }
    rewrite (q_sym HO _ _ E) in Z. discriminate.
  - destruct (C c) as (_ & _ & _ & Q); [apply in_or_app; right; now left|]. specialize (Q U). destruct (snd c) as [|z [|]]; cbn in Q; try lia.
    destruct X as [->|[]], Y as [->|[]]. auto.
  - apply fop_app in F as (_ & F & _). inversion F as [|? ? A _]; subst. rewrite Forall_forall in A.
    rewrite (A d Hd x y X Y) in E. discriminate.
Qed.
(** values with equivalent keys are interchangeable *)
Lemma hok_equiv vl vl' n I : hok vl (n, I) -> (forall y, In y (elems I) -> eq (key (vl y)) (key (vl' y)) = true) -> hok vl' (n, I).
Proof.
  intros (G & EI & C & F) E. cbn [fst snd] in *. exists G. cbn [fst snd]. subst I. rewrite elems_flat in E.
  assert (E' : forall c y, In c G -> In y (snd c) -> eq (key (vl y)) (key (vl' y)) = true) by (intros c y Hc Y; apply E, in_elems; eauto).
  split; [reflexivity|]. split.
  - rewrite Forall_forall in C |- *. intros c Hc. destruct (C c Hc) as (A & P & Q & U). split; [exact A|]. split; [|split; [|exact U]].
    + intros y Y. rewrite <- (P y Y). f_equal. symmetry. apply (q_hash HO). eauto.
    + intros y z Y Z. rewrite <- (q_left HO _ _ _ (E' c y Hc Y)), <- (q_right HO _ _ _ (E' c z Hc Z)). auto.
  - clear C E. induction F as [|c G A F IH]; constructor.
    + rewrite Forall_forall in A |- *. intros d Hd y z Y Z.
      rewrite <- (q_left HO _ _ _ (E' c y (or_introl eq_refl) Y)), <- (q_right HO _ _ _ (E' d z (or_intror Hd) Z)). apply (A d Hd); auto.
    + apply IH. intros d y Hd Y. apply (E' d); [now right|auto].
Qed.
Lemma hok_single vl n I : hok vl (n, I) -> uniq = true -> single I.
Proof. intros H. exact (proj2 (hok_items H)). Qed.
Lemma hok_wfi vl n I : 0 < n -> hok vl (n, I) -> ~ In null (elems I) -> wfi n I.
Proof.
  intros Hn (G & C) N. eapply wfi_flat; [exact Hn|exact C|]. destruct C as (E & _). cbn [snd] in E. subst I. now rewrite elems_flat in N.
Qed.

(** the arrangement after linking an element *)
Lemma addk_put vl vl' n I G G' x k : classes vl n I G -> addk key eq hash uniq vl k n x G G' -> key (vl' x) = k ->
  (forall y, In y (elems I) -> vl' y = vl y) -> ~ In x (elems I) ->
  hput key eq hash uniq vl' x (n, I) (n, flat G') /\ hok vl' (n, flat G') /\ Permutation (elems (flat G')) (x :: elems I).
Proof.
  intros C A Ek Ev Nx.
  assert (EI : elems I = elems G) by (destruct C as (-> & _); apply elems_flat).
  assert (C' : classes vl' n I G) by (eapply classes_ext; [exact C|]; intros y Y; symmetry; auto).
  assert (P : hput key eq hash uniq vl' x (n, I) (n, flat G')).
  { split; [reflexivity|]. exists G, G'. cbn [fst snd]. rewrite EI in *. split; [exact C'|]. split; [exact Nx|]. split; [|reflexivity].
    eapply addk_added; [exact A|exact Ek|exact Ev]. }
  split; [exact P|]. split; [|exact (hput_els P)].
  eapply (hput_ok HO); [exact P|]. cbn [snd]. intros y Y (U & E). rewrite Ek, Ev in E by auto. rewrite EI in Y.
  exact (addk_noconf A _ Y (conj U E)).
Qed.
End Arr.

Section Hash.
Variables V K : Type.
Variable throws : nat -> bool.
Variable pick : list node -> node.
Variable dv : V.
Hypothesis pick_ok : forall l, ~ In (pick l) (null :: l).
Variable key : V -> K.
Variable eq : K -> K -> bool.
Variable hash : K -> nat.
Variable uniq : bool.
Variable hd : node.
Variable junk : bptr * bptr.
Variable L : Layer V.
Variable S : Spec V.
Variable rep : St L -> AV S -> Prop.
Variable shell : St L -> Prop.
Hypothesis O : OK throws pick dv hd L S rep shell.
Hypothesis HO : heq_ok eq hash.
Notation OM := (OM L).
Notation val := (val dv).
Notation hok := (hok key eq hash uniq).
Notation classes := (classes key eq hash uniq).
Notation LO := (hashed throws pick key eq hash uniq hd junk L).
Notation SO := (cons_spec (hkind key eq hash uniq) S).

(** own data members [t] hold the arrangement [a] *)
Definition hhas (t : hst) (a : hav) : Prop :=
  bc t = fst a /\ tabled (bc t) /\ wfi (bc t) (snd a) /\ (uniq = true -> single (snd a)) /\
  hs (hp t) (layout (arr t) (bc t) hd (snd a)).
Definition hrep (st : St LO) (a : AV SO) : Prop := hhas (fst st) (fst a) /\ rep (snd st) (snd a).
Definition hshell (st : St LO) : Prop :=
  tabled (bc (fst st)) /\ hp (fst st) (NX hd) <> None /\ hp (fst st) (PR (PN hd)) <> None /\ shell (snd st).

Lemma hhas_nd t a : hhas t a -> NoDup (hd :: elems (snd a)).
Proof.
  intros (_ & _ & W & _ & (N & _)). apply own_nd in N. eapply NoDup_perm; [|exact N]. now apply own_layout.
Qed.
Lemma hhas_set t a h I : hhas t a -> wfi (bc t) I -> (uniq = true -> single I) -> hs h (layout (arr t) (bc t) hd I) ->
  hhas (set_hp h t) (fst a, I).
Proof. intros (E & N & _) W U H. split; [|split; [|split; [|split]]]; auto. Qed.
Lemma hhas_self t a h : hhas t a -> hs h (layout (arr t) (bc t) hd (snd a)) -> hhas (set_hp h t) a.
Proof. intros H H'. assert (H0 := H). destruct a as (n, I). destruct H0 as (_ & _ & W & U & _). exact (hhas_set H W U H'). Qed.
Lemma bucket_ro t s k : Ro throws t s (bucket throws hash L k) (fun i => i = position (hash k) (bc t)).
Proof. unfold bucket, hcall. eapply Ro_ucall; [exact O|]. now apply Ro_get1. Qed.
Lemma lp_set h t s G k i r : lp_spec dv key eq uniq L t s G k i r -> lp_spec dv key eq uniq L (set_hp h t) s G k i r.
Proof.
  intros [N|G1 g G2 U E Q|x U X E].
  - exact (@lp_new _ _ dv key eq uniq L (set_hp h t) s G k i N).
  - eapply lp_class; eauto.
  - now apply lp_dup.
Qed.
Lemma layout_hdpr h a n I : hs h (layout a n hd I) -> exists w, h (PR (PN hd)) = Some w.
Proof.
  intros H. unfold layout in H. rewrite links_app in H. cbn [links first_of List.hd] in H. exists (PN (lastn hd I)). eapply hs_in; [exact H|].
  rewrite !in_app_iff. left. right. left. unfold joint. destruct (same_bucket _ _); cbn; auto.
Qed.
Lemma layout_hdnx h a n I : hs h (layout a n hd I) -> exists w, h (NX hd) = Some w.
Proof.
  intros H. unfold layout in H. destruct I as [|(i, g) I]; cbn [app links] in H; unfold joint at 1 in H; cbn [same_bucket] in H; eexists; (eapply hs_in; [exact H|]); cbn; auto.
Qed.

Ltac tidy := cbn [hashed cget bget fst snd] in *.

Lemma hash_rehash w s a lk :
  hrep s a -> inv hd (bget LO s) (els SO a) lk -> cget LO s = length lk -> aok SO (val (bget LO s)) a ->
  wp (rehash throws pick key hash uniq hd L w)
     (fun _ s' => exists a', hrep s' (a', snd a) /\ cget LO s' = cget LO s /\ hsame key hash (val (bget LO s)) (fst a) a' /\
        mem (bget LO s') = mem (bget LO s) /\ quiet throws (tk (bget LO s)) (tk (bget LO s')))
     (fun s' => hrep s' a /\ cget LO s' = cget LO s /\
        mem (bget LO s') = mem (bget LO s) /\ blown throws (tk (bget LO s)) (tk (bget LO s'))) s.
Proof.
  destruct s as (t, s), a as ((n, I), a). intros (Hh & Rp) Iv Cg (So & Ao).
  cbn [fst snd] in *. change (bget LO (t, s)) with (bget L s) in *. change (cget LO (t, s)) with (cget L s) in *.
  change (els SO ((n, I), a)) with (elems I :: els S a) in Iv. change (kok (hkind key eq hash uniq)) with hok in So.
  assert (Pl := inv_hd Iv).
  assert (Hh0 := Hh). destruct Hh as (En & Hn & W & U & Hs). cbn [fst snd] in *. subst n. assert (Hnp := tabled_pos Hn).
  assert (Sz : length (elems I) = cget L s) by (rewrite Cg; now apply Permutation_length).
  assert (LV : forall y, In y (elems I) -> live (bget L s) y).
  { intros y Iy. apply (i_live Iv). eapply Permutation_in; eauto. }
  set (vl := val (bget L s)) in *. rewrite <- (adv_self O s) at 1.
  eapply wp_conseq; [eapply (rehash_ok O pick_ok); [exact Hn|exact W|exact Hs|exact So|exact LV|exact (i_hd Iv)|exact Sz]| |].
  - cbn beta. intros ? st (n1 & t1 & I1 & q1 & -> & Sm1 & Hn1 & W1 & Hs1 & _). exists (bc t1, I1). tidy. splits.
    + split; [|now apply (o_repb O)]. split; [|split; [|split; [|split]]]; auto. cbn [fst snd].
      assert (So1 : hok vl (bc t1, I1)) by (eapply (hsame_ok HO); [exact Sm1|exact So]). eapply hok_single; exact So1.
    + eapply adv_cget; exact O.
    + exact Sm1.
    + eapply adv_mem; exact O.
    + erewrite adv_tk by exact O. exact q1.
  - cbn beta. intros st (m & h' & B & -> & Hs'). tidy. splits.
    + split; [exact (hhas_self Hh0 Hs')|now apply (o_repb O)].
    + eapply adv_cget; exact O.
    + eapply adv_mem; exact O.
    + erewrite adv_tk by exact O. exact B.
Qed.

Lemma hash_insert : forall s a lk v hint x var,
    hrep s a -> inv hd (bget LO s) (els SO a) lk -> cget LO s = length lk ->
    aok SO (val (bget LO s)) a -> hint_ok hd hint lk -> ready SO (bget LO s) var x v a lk ->
    wp (l_insert LO v hint x var)
       (fun r s' => exists a', hrep s' a' /\ cget LO s' = cget LO s /\
          quiet throws (tk (bget LO s)) (tk (bget LO s')) /\
          ((fst r = snd r /\ inserted pick (bget LO s) (bget LO s') var x v (snd r) /\
            (forall y, In y lk -> ~ aconf SO v (val (bget LO s) y)) /\
            ains SO var (val (bget LO s')) hint a (snd r) a' /\ aok SO (val (bget LO s')) a') \/
           (fst r <> snd r /\ snd r = x /\ In (fst r) lk /\ aconf SO v (val (bget LO s) (fst r)) /\
            asame SO (val (bget LO s)) a a' /\ mem (bget LO s') = mem (bget LO s))))
       (fun s' => exists a', hrep s' a' /\ cget LO s' = cget LO s /\ asame SO (val (bget LO s)) a a' /\
          mem (bget LO s') = mem (bget LO s) /\ blown throws (tk (bget LO s)) (tk (bget LO s')))
       s.
Proof.
  intros (t, s) ((n, I), a) lk v hint x var (Hh & Rp) Iv Cg (So & Ao) H Rd.
  cbn [fst snd] in *. change (bget LO (t, s)) with (bget L s) in *. change (cget LO (t, s)) with (cget L s) in *.
  change (els SO ((n, I), a)) with (elems I :: els S a) in Iv. change (kok (hkind key eq hash uniq)) with hok in So.
  assert (Pl := inv_hd Iv). assert (Iv' := inv_tl Iv). assert (ND := hhas_nd Hh).
  assert (Hh0 := Hh). destruct Hh as (En & Hn & W & U & Hs). cbn [fst snd] in *. subst n. assert (Hnp := tabled_pos Hn).
  assert (Sz : length (elems I) = cget L s) by (rewrite Cg; now apply Permutation_length).
  assert (LV : forall y, In y (elems I) -> live (bget L s) y).
  { intros y Iy. apply (i_live Iv). eapply Permutation_in; eauto. }
  assert (Rd' : ready S (bget L s) var x v a lk) by (destruct var; exact Rd).
  set (vl := val (bget L s)) in *.
  cbn [l_insert hashed]. unfold h_insert_.
  rewrite <- (adv_self O s) at 1. eapply wp_size; [exact O|]. apply wp_bind.
  eapply wp_conseq; [eapply (reserve_ok O pick_ok); [exact Hn|exact W|exact Hs|exact So|exact LV|exact (i_hd Iv)|exact Sz]| |].
  2:{ cbn beta. intros st (m & h' & B & -> & Hs'). exists ((bc t, I), a). tidy. splits.
      - split; [exact (hhas_self Hh0 Hs')|now apply (o_repb O)].
      - eapply adv_cget; exact O.
      - split; cbn; [now left|apply (o_same O)].
      - eapply adv_mem; exact O.
      - erewrite adv_tk by exact O. exact B. }
  cbn beta. intros ? st (n1 & t1 & I1 & q1 & -> & Sm1 & Hn1 & W1 & Hs1). assert (Hnp1 := tabled_pos Hn1).
  assert (P1 := hsame_els Sm1). cbn [snd] in P1.
  assert (So1 : hok vl (bc t1, I1)) by (eapply (hsame_ok HO); [exact Sm1|exact So]).
  assert (Hh1 : hhas t1 (bc t1, I1)).
  { split; [|split; [|split; [|split]]]; auto. cbn [snd]. eapply hok_single; exact So1. }
  assert (Pl1 : Permutation (elems I1) lk) by (rewrite <- P1; exact Pl).
  assert (LV1 : forall y, In y (elems I1) -> live (bget L s) y).
  { intros y Iy. apply (i_live Iv). eapply Permutation_in; eauto. }
  assert (Sz1 : length (elems I1) <= Datatypes.S (cget L s)).
  { apply Permutation_length in Pl1. rewrite Pl1, <- Cg. apply le_S, le_n. }
  assert (Fail : forall st, (exists n, blown throws n1 n /\ st = (t1, adv L n s)) ->
     exists a', hrep st a' /\ cget LO st = cget L s /\ asame SO vl ((bc t, I), a) a' /\
          mem (bget LO st) = mem (bget L s) /\ blown throws (tk (bget L s)) (tk (bget LO st))).
  { intros st (n & B & ->). exists ((bc t1, I1), a). tidy. splits.
    - split; [exact Hh1|now apply (o_repb O)].
    - eapply adv_cget; exact O.
    - split; cbn; [exact Sm1|apply (o_same O)].
    - eapply adv_mem; exact O.
    - erewrite adv_tk by exact O. eapply blown_trans; eauto. }
  eapply Ro_wpn; [apply bucket_ro| |].
  2:{ intros n B. apply Fail. eauto. }
  intros buc n2 -> q2. destruct So1 as (G & CL). cbn [fst snd] in CL.
  eapply Ro_wpn.
  { eapply (@link_point_ok V K throws pick dv key eq hash uniq hd L S rep shell O HO t1 s I1 []).
    - exact W1.
    - rewrite app_nil_r. exact Hs1.
    - destruct Hh1 as (_ & _ & _ & U1 & _). exact U1.
    - exact LV1.
    - exact Sz1.
    - exact CL.
    - exact (tabled_pos Hn1).
    - reflexivity. }
  2:{ intros n B. apply Fail. exists n. split; auto. eapply blown_trans; eauto. }
  intros (ok, pos) n3 Hp q3.
  assert (q0 : quiet throws (tk (bget L s)) n3) by (eapply quiet_trans; [exact q1|eapply quiet_trans; eauto]).
  destruct ok.
  2:{ inversion Hp as [|?|y Ux Y Ey Ep]; subst pos. cbn [fst pfrom]. apply wp_hp, wp_ret, wp_ret. cbn [set_hp]. rewrite set_hp_self.
      assert (Y1 : In y (elems I1)) by (destruct CL as (-> & _); now rewrite elems_flat).
      assert (Ipl : In y lk) by (eapply Permutation_in; eauto).
      exists ((bc t1, I1), a). tidy. splits.
      - split; [exact Hh1|now apply (o_repb O)].
      - eapply adv_cget; exact O.
      - erewrite adv_tk by exact O. exact q0.
      - right. splits; auto.
        + eapply (ready_fresh throws) with (1 := Iv) (2 := Rd'); auto.
        + left. split; auto.
        + split; cbn; [exact Sm1|apply (o_same O)].
        + eapply adv_mem; exact O. }
  assert (Fe : val (bget L (adv L n3 s)) = vl) by (unfold Layer.val, vl; erewrite adv_mem by exact O; reflexivity).
  apply wp_bind, wp_sup. eapply wp_conseq.
  { apply (o_insert O) with (a := a) (lk := lk).
    - now apply (o_repb O).
    - eapply inv_mem; [|exact Iv']. symmetry. eapply adv_mem; exact O.
    - erewrite adv_cget by exact O. exact Cg.
    - now rewrite Fe.
    - exact H.
    - destruct var; cbn in *; erewrite ?adv_mem by exact O; auto. }
  - intros (res, x') s' (a' & Rs & Cs & qs & D). cbn [fst snd] in D. rewrite Fe in D.
    erewrite adv_cget in Cs by exact O. erewrite adv_tk in qs by exact O.
    assert (Q1 : quiet throws (tk (bget L s)) (tk (bget L s'))) by (eapply quiet_trans; eauto).
    destruct D as [(-> & Ins & Nc & Ai & Ao')|(Nr & -> & Ir & Cf & Sm & Mm)].
    + rewrite Nat.eqb_refl.
      assert (Ins' : inserted pick (bget L s) (bget L s') var x v x').
      { destruct var; cbn in *; erewrite adv_mem in Ins by exact O; auto. }
      destruct (inserted_ok pick dv pick_ok _ _ _ _ _ _ _ Iv Rd' Ins') as (E1 & E2 & Fr). fold vl in E1.
      assert (Nx : ~ In x' (elems I1)).
      { intros X. apply Fr. right. right. eapply Permutation_in; eauto. }
      apply wp_bind, wp_bind. unfold place. apply wp_hp1. unfold wp at 1. cbn [fst].
      eapply wp_conseq.
      { eapply (@do_link_ok V K dv hd key eq hash uniq L (set_hp (put_node x' junk (hp t1)) t1) s s' I1 G x' (key v) pos (fst junk) (snd junk) []); auto; [now apply lp_set|].
        rewrite app_nil_r. cbn [set_hp hp]. apply put_node_lay; [exact Hs1|].
        intros c Hc X. apply loc_of_layout in Hc as [Hc|(y & Y & Hc)]; auto.
        - exact (of_array_node Hc X).
        - assert (Ey := of_node_inj Hc X). subst y. destruct Y as [->|Y]; [apply Fr; cbn; auto|auto]. }
      2:{ easy. }
      cbn beta. intros ? st (h' & G' & -> & A & Hs'). rewrite app_nil_r in Hs'. cbn [set_hp arr bc] in *. apply wp_ret.
      assert (E1' : forall y, In y (elems I1) -> val (bget L s') y = vl y) by (intros y Y; apply E1; eapply Permutation_in; eauto).
      assert (Ek : key (val (bget L s') x') = key v) by now rewrite E2.
      destruct (@addk_put V K key eq hash uniq HO vl (val (bget L s')) (bc t1) I1 G G' x' (key v) CL A Ek E1' Nx) as (Pt & Ok' & Pe).
      exists ((bc t1, flat G'), a'). tidy. splits; auto.
      * split; [|exact Rs]. cbn [fst]. split; [|split; [|split; [|split]]]; auto.
        -- cbn [snd set_hp bc]. eapply hok_wfi; [exact (tabled_pos Hn1)|exact Ok'|]. intros X. apply (Permutation_in _ Pe) in X. destruct X as [X|X].
           ++ apply Fr. now left.
           ++ exact (wfi_null W1 X).
        -- cbn [snd]. eapply hok_single; exact Ok'.
      * left. splits; auto.
        -- intros y Iy [C|C]; [|now apply (Nc y Iy)].
           apply (Permutation_in _ (Permutation_sym Pl1)) in Iy. destruct CL as (EI & _). rewrite EI, elems_flat in Iy.
           exact (addk_noconf A _ Iy C).
        -- split; [|exact Ai]. exists (bc t1, I1). split; [|exact Pt]. cbn [fst]. eapply hsame_ext; [exact Sm1|]. intros y Y. symmetry. apply E1. eapply Permutation_in; [exact Pl|exact Y].
        -- split; auto.
    + assert (Nr' := Nr). apply Nat.eqb_neq in Nr'. rewrite Nr'. apply wp_bind, wp_ret, wp_ret.
      exists ((bc t1, I1), a'). tidy. splits; auto.
      * split; auto.
      * right. splits; auto.
        -- now right.
        -- split; cbn; auto.
        -- rewrite Mm. eapply adv_mem; exact O.
  - intros s' (a' & Rs & Cs & Sm & Mm & B). erewrite adv_cget in Cs by exact O. erewrite adv_tk in B by exact O. erewrite adv_mem in Mm by exact O. rewrite Fe in Sm.
    exists ((bc t1, I1), a'). tidy. splits; auto.
    + split; auto.
    + split; cbn; auto.
    + eapply blown_trans; eauto.
Qed.

Lemma hash_extract s a x :
    hrep s a -> Forall (fun l => NoDup l /\ In x l /\ length l <= Datatypes.S (cget LO s)) (els SO a) ->
    wp (l_extract LO x)
       (fun _ s' => hrep s' (arem SO x a) /\ cget LO s' = cget LO s /\ bget LO s' = bget LO s)
       (fun _ => False) s.
Proof.
  destruct s as (t, s), a as ((n, I), a). intros (Hh & Rp) F. cbn [fst snd] in *.
  change (els SO ((n, I), a)) with (elems I :: els S a) in F. inversion F as [|? ? (ND & Ix & Sz) F']; subst.
  cbn [l_extract hashed]. unfold h_extract_, unlink. tidy.
  assert (Hh0 := Hh). destruct Hh as (En & Hn & W & U & Hs). cbn [fst snd] in *. subst n. assert (Hnp := tabled_pos Hn).
  apply wp_hp. eapply wp_conseq; [eapply (@untracked_lay (arr t) (bc t) hd uniq) with (F := []); rewrite ?app_nil_r; eauto| |easy].
  cbn beta. intros _ h' (v & w & Hs'). apply hs_l in Hs'.
  apply wp_sup. eapply wp_conseq; [apply (o_extract O) with (a := a); auto| |easy].
  intros [] s' (Rs & Cs & Bs). tidy. splits; auto. split; auto. cbn [fst].
  exact (hhas_set Hh0 (rem_wfi x W) (fun E => rem_single x (U E)) Hs').
Qed.

Lemma hash_delete s a l ls :
    hrep s a -> els SO a = l :: ls -> length l <= cget LO s -> NoDup (map fst (mem (bget LO s))) ->
    (forall x, In x l -> live (bget LO s) x) ->
    wp (l_delete_all LO)
       (fun _ s' => hshell s' /\ cget LO s' = cget LO s /\ tk (bget LO s') = tk (bget LO s) /\
          mem (bget LO s') = filter (fun p => negb (existsb (Nat.eqb (fst p)) l)) (mem (bget LO s)))
       (fun _ => False) s.
Proof.
  destruct s as (t, s), a as ((n, I), a). intros (Hh & Rp) E Sz ND LV. cbn [fst snd] in *.
  change (els SO ((n, I), a)) with (elems I :: els S a) in E. injection E as <- _.
  cbn [l_delete_all hashed]. unfold h_delete_all_. tidy.
  destruct Hh as (En & Hn & W & U & Hs). cbn [fst snd] in *. subst n. assert (Hnp := tabled_pos Hn).
  assert (exists w F, hs (hp t) (links (arr t) None hd I ++ (NX (lastn hd I), w) :: (PR (PN hd), PN (lastn hd I)) :: F)) as (w & F & Hs').
  { unfold layout in Hs. rewrite links_app in Hs. cbn [links first_of List.hd inner app] in Hs. unfold joint in Hs.
    destruct (same_bucket _ _).
    - eexists _, _. eapply hs_perm; [|exact Hs]. rewrite !app_nil_r, <- app_assoc. cbn [app]. reflexivity.
    - exists (PB (arr t) (bc t)), ((PR (PB (arr t) (bc t)), PN hd) :: empties (arr t) (bc t) I). eapply hs_perm; [|exact Hs]. permc. }
  eapply wp_rdhp; [eapply Rd_pri; [exact Hs'|]; apply in_or_app; right; right; now left|].
  unfold bound. apply wp_bind, wp_bind, wp_sup. unfold Layer.size, wp at 1. apply wp_ret. cbn [snd fst].
  eapply wp_conseq; [eapply (@del_items V K throws pick dv hd key uniq L S rep shell O (arr t) (bc t) I W U); [exact Hs'|exact LV|lia]| |easy].
  cbn beta. intros ? st (h' & w' & F' & -> & H'). tidy. unfold gone. rewrite (o_bb O), (o_cb O). cbn [mem tk]. splits; auto.
  split; [exact Hn|]. cbn [fst snd set_hp hp]. split; [|split].
  - rewrite (hs_in (NX hd) w' H'); [easy|now left].
  - rewrite (hs_in (PR (PN hd)) (PN (lastn hd I)) H'); [easy|]. right. apply in_or_app. right. now left.
  - apply (o_shellb O). now apply (o_shell O) with (a := a).
Qed.

Lemma hash_clear s : hshell s ->
    wp (l_clear LO)
       (fun _ s' => (exists a, hrep s' a /\ Forall (Logic.eq []) (els SO a) /\ forall vl, aok SO vl a) /\
          cget LO s' = cget LO s /\ bget LO s' = bget LO s)
       (fun _ => False) s.
Proof.
  destruct s as (t, s). intros (Hn & H1 & H2 & Sh). cbn [fst snd] in *.
  cbn [l_clear hashed]. unfold h_clear_. tidy.
  apply wp_bind, wp_sup. eapply wp_conseq; [apply (o_clear O); eauto| |easy].
  intros [] s' ((a & Rs & Fa & Ok) & Cs & Bs). cbn [fst]. apply wp_get, wp_get, wp_hp1. unfold clear.
  destruct (hp t (NX hd)) as [w1|] eqn:E1; [|easy]. destruct (hp t (PR (PN hd))) as [w2|] eqn:E2; [|easy].
  unfold wp, rd, bind. rewrite E1, E2. tidy. splits; auto. exists ((bc t, []), a). splits.
  - split; auto. cbn [fst]. split; [|split; [|split; [|split]]]; cbn [fst snd set_hp bc hp arr]; auto.
    + constructor.
    + constructor.
    + pose proof (@new_array_lay (arr t) (bc t) hd (hp t) []) as X. rewrite app_nil_r in X. apply X; [|easy]. split; constructor.
  - constructor; auto.
  - intros vl. split; [|auto]. exists []. split; [reflexivity|]. split; constructor.
Qed.

(** the element [x] has been moved to where it belongs *)
Lemma moved_arr t vl vl' I G G' x k : hhas t (bc t, I) -> In x (elems I) ->
  classes vl (bc t) (rem_items x I) G -> addk key eq hash uniq vl k (bc t) x G G' -> key (vl' x) = k ->
  (forall y, In y (elems I) -> y <> x -> vl' y = vl y) ->
  hmov key eq hash uniq vl' x (bc t, I) (bc t, flat G') /\ hok vl' (bc t, flat G') /\ wfi (bc t) (flat G') /\
  (uniq = true -> single (flat G')) /\ (forall y, In y (elems I) -> y <> x -> ~ (uniq = true /\ eq k (key (vl y)) = true)) /\
  Permutation (elems (flat G')) (elems I) /\ rem_items x (flat G') = rem_items x I.
Proof.
  intros Hh X C A Ek Ev. assert (ND := hhas_nd Hh). cbn [snd] in ND. apply NoDup_cons_iff in ND as (_ & ND).
  assert (Hn : 0 < bc t) by (destruct Hh as (_ & Hn & _); exact (tabled_pos Hn)).
  assert (W : wfi (bc t) I) by (destruct Hh as (_ & _ & W & _); exact W).
  assert (Sub : forall y, In y (elems (rem_items x I)) <-> In y (elems I) /\ y <> x).
  { intros y. rewrite elems_rem. split; intros Y; [apply in_remove in Y; tauto|now apply in_in_remove]. }
  destruct (@addk_put V K key eq hash uniq HO vl vl' (bc t) (rem_items x I) G G' x k C A Ek) as (Pt & Ok & Pe).
  { intros y Y. apply Sub in Y as (Y & Ny). auto. }
  { intros Y. apply Sub in Y as (_ & Y). auto. }
  assert (M : hmov key eq hash uniq vl' x (bc t, I) (bc t, flat G')) by (right; auto).
  assert (Pe' : Permutation (elems (flat G')) (elems I)) by (symmetry; exact (hmov_els M)).
  split; [exact M|]. split; [exact Ok|]. split; [|split; [|split; [|split]]].
  - eapply hok_wfi; [exact Hn|exact Ok|]. intros Y. apply (Permutation_in _ Pe') in Y. exact (wfi_null W Y).
  - eapply hok_single; exact Ok.
  - intros y Y Ny. apply (addk_noconf A). destruct C as (EI & _). rewrite <- elems_flat, <- EI. now apply Sub.
  - exact Pe'.
  - assert (R := hmov_rem M). unfold hrem in R. cbn [fst snd] in R. now injection R.
Qed.

Lemma hash_replace s a lk v x :
    hrep s a -> inv hd (bget LO s) (els SO a) lk -> cget LO s = length lk ->
    aok SO (val (bget LO s)) a -> In x lk ->
    wp (l_replace LO v x)
       (fun r s' => cget LO s' = cget LO s /\ quiet throws (tk (bget LO s)) (tk (bget LO s')) /\
          if r : bool then
            mem (bget LO s') = mset (mem (bget LO s)) x (Some v) /\
            (forall y, In y lk -> y <> x -> ~ aconf SO v (val (bget LO s) y)) /\
            exists a', hrep s' a' /\ amov SO (val (bget LO s')) x a a' /\ aok SO (val (bget LO s')) a'
          else
            mem (bget LO s') = mem (bget LO s) /\ hrep s' a /\
            exists y, In y lk /\ y <> x /\ aconf SO v (val (bget LO s) y))
       (fun s' => hrep s' a /\ cget LO s' = cget LO s /\ mem (bget LO s') = mem (bget LO s) /\
          blown throws (tk (bget LO s)) (tk (bget LO s')))
       s.
Proof.
  destruct s as (t, s), a as ((n, I), a). intros (Hh & Rp) Iv Cg (So & Ao) Ix. cbn [fst snd] in *.
  change (bget LO (t, s)) with (bget L s) in *. change (cget LO (t, s)) with (cget L s) in *.
  change (els SO ((n, I), a)) with (elems I :: els S a) in Iv. change (kok (hkind key eq hash uniq)) with hok in So.
  assert (Pl := inv_hd Iv). assert (Iv' := inv_tl Iv). assert (Pl' := Permutation_sym Pl). assert (ND := hhas_nd Hh).
  cbn [snd] in ND. apply NoDup_cons_iff in ND as (_ & ND).
  assert (Hh0 := Hh). destruct Hh as (En & Hn & W & U & Hs). cbn [fst snd] in *. subst n. assert (Hnp := tabled_pos Hn).
  assert (Sz : length (elems I) = cget L s) by (rewrite Cg; now apply Permutation_length).
  assert (Ix' : In x (elems I)) by (eapply Permutation_in; eauto).
  assert (LV : forall y, In y (elems I) -> live (bget L s) y).
  { intros y Iy. apply (i_live Iv). eapply Permutation_in; eauto. }
  assert (Fe : forall n, val (bget L (adv L n s)) = val (bget L s)) by (intros; unfold Layer.val; erewrite adv_mem by exact O; reflexivity).
  set (vl := val (bget L s)) in *.
  assert (Sup : forall n, quiet throws (tk (bget L s)) n ->
     wp (l_replace L v x) (fun r s' => cget L s' = cget L s /\ quiet throws n (tk (bget L s')) /\
         if r : bool then
            mem (bget L s') = mset (mem (bget L s)) x (Some v) /\
            (forall y, In y lk -> y <> x -> ~ aconf S v (vl y)) /\
            exists a', rep s' a' /\ amov S (val (bget L s')) x a a' /\ aok S (val (bget L s')) a'
          else
            mem (bget L s') = mem (bget L s) /\ rep s' a /\
            exists y, In y lk /\ y <> x /\ aconf S v (vl y))
       (fun s' => cget L s' = cget L s /\ rep s' a /\ mem (bget L s') = mem (bget L s) /\ blown throws n (tk (bget L s'))) (adv L n s)).
  { intros n q. eapply wp_conseq.
    { apply (o_replace O) with (a := a) (lk := lk) (v := v) (x := x); auto.
      - now apply (o_repb O).
      - eapply inv_mem; [|exact Iv']. symmetry. eapply adv_mem; exact O.
      - erewrite adv_cget by exact O. exact Cg.
      - now rewrite Fe. }
    + intros r s' (C & Q & H). erewrite adv_cget in C by exact O. erewrite adv_tk in Q by exact O. rewrite Fe in H. erewrite adv_mem in H by exact O. auto.
    + intros s' (Ra & C & M & B). erewrite adv_cget in C by exact O. erewrite adv_tk in B by exact O. erewrite adv_mem in M by exact O. auto. }
  assert (Ey : forall s', mem (bget L s') = mset (mem (bget L s)) x (Some v) ->
      (forall y, y <> x -> val (bget L s') y = vl y) /\ val (bget L s') x = v).
  { intros s' M. split.
    - intros y N. apply Nat.eqb_neq in N. unfold vl, Layer.val. now rewrite M, look_mset, N.
    - unfold Layer.val. rewrite M, look_mset, Nat.eqb_refl. destruct (i_live Iv x Ix) as (w & ->). reflexivity. }
  cbn [l_replace hashed]. unfold h_replace_. eapply (Ro_wp O).
  { eapply Ro_test1; [exact O|now apply LV|]. instantiate (1 := fun r => r = eq (key v) (key (vl x))). reflexivity. }
  2:{ intros n B. tidy. erewrite adv_cget, adv_tk, adv_mem by exact O. splits; auto. split; [exact Hh0|now apply (o_repb O)]. }
  intros b n -> q. destruct (eq (key v) (key (vl x))) eqn:Ee.
  - apply wp_sup. eapply wp_conseq; [apply (Sup n q)| |].
    + intros r s' (C & Q & H). tidy. split; [exact C|]. split; [eapply quiet_trans; eauto|]. destruct r.
      * destruct H as (M & Nc & a' & Ra & Am & Aa). split; [exact M|]. destruct (Ey s' M) as (Ev & Ex). split.
        -- intros y Iy N [(Uq & E)|E]; [|exact (Nc y Iy N E)].
           eapply (hok_noconf HO (vl := vl) (x := x) (y := y)); [exact So|exact Ix'|eapply Permutation_in; eauto|exact N|].
           split; [exact Uq|]. rewrite <- E. symmetry. apply (q_left HO). exact Ee.
        -- exists ((bc t, I), a'). split; [split; auto|]. split; [split; [now left|exact Am]|]. split; [|exact Aa]. cbn [fst].
           eapply (hok_equiv HO); [exact So|]. intros y Y. destruct (Nat.eq_dec y x) as [->|N].
           ++ rewrite Ex. now apply (q_sym HO).
           ++ rewrite Ev by exact N. apply (q_refl HO).
      * destruct H as (M & Ra & y & Iy & N & Cy). split; [exact M|]. split; [split; auto|]. exists y. splits; auto. now right.
    + intros s' (C & Ra & M & B). tidy. splits; auto; [split; auto|]. eapply blown_trans; eauto.
  - destruct So as (G0 & C0). assert (CL := classes_rem x C0). cbn [fst snd] in CL.
    eapply wp_conseq.
    { apply (@h_move_spec V K throws pick dv hd key eq hash uniq L S rep shell O HO t s n I (remc x G0) x (key v) (bucket throws hash L (key v)) (l_replace L v x)
        (fun n' r s' => quiet throws n' (tk (bget L s')) /\
         if r : bool then
            mem (bget L s') = mset (mem (bget L s)) x (Some v) /\
            (forall y, In y lk -> y <> x -> ~ aconf S v (vl y)) /\
            exists a', rep s' a' /\ amov S (val (bget L s')) x a a' /\ aok S (val (bget L s')) a'
          else
            mem (bget L s') = mem (bget L s) /\ rep s' a /\
            exists y, In y lk /\ y <> x /\ aconf S v (vl y))
        (fun n' s' => rep s' a /\ mem (bget L s') = mem (bget L s) /\ blown throws n' (tk (bget L s')))); auto.
      - now rewrite Sz.
      - intros h'. exact (bucket_ro (set_hp h' t) s (key v)).
      - intros n' q'. apply Sup. eapply quiet_trans; eauto. }
    + intros r (t', s') (n' & h' & q' & Et & D). tidy. subst t'.
      assert (qq : quiet throws (tk (bget L s)) n') by (eapply quiet_trans; eauto).
      destruct D as [(-> & Uq & (y & Iy & Ny & Cy) & -> & Hs')|(C & (Q & H) & D)].
      * erewrite adv_cget, adv_tk, adv_mem by exact O. splits; auto.
        -- split; [exact (hhas_self Hh0 Hs')|now apply (o_repb O)].
        -- exists y. splits; auto; [eapply Permutation_in; eauto|]. left. split; auto.
      * split; [exact C|]. split; [eapply quiet_trans; eauto|]. destruct r.
        -- destruct H as (M & Nc & a' & Ra & Am & Aa). destruct D as (G' & A & Hs'). destruct (Ey s' M) as (Ev & Ex).
           destruct (@moved_arr t vl (val (bget L s')) I (remc x G0) G' x (key v) Hh0 Ix' CL A (f_equal key Ex) (fun y _ N => Ev y N)) as (Mv & Ok' & W' & U' & Nc' & Pe & _).
           split; [exact M|]. split.
           ++ intros y Iy N [E|E]; [|exact (Nc y Iy N E)]. apply (Nc' y); auto. exact (Permutation_in y Pl' Iy).
           ++ exists ((bc t, flat G'), a'). split; [split; [exact (hhas_set Hh0 W' U' Hs')|exact Ra]|]. split; split; auto.
        -- destruct H as (M & Ra & y & Iy & N & Cy). split; [exact M|]. split; [split; [exact (hhas_self Hh0 D)|exact Ra]|]. exists y. splits; auto. now right.
    + intros (t', s') (h' & Et & Hs' & D). tidy. subst t'. destruct D as [(n' & B & ->)|(n' & q' & C & Ra & M & B)].
      * erewrite adv_cget, adv_tk, adv_mem by exact O. splits; auto; [split; [exact (hhas_self Hh0 Hs')|now apply (o_repb O)]|]. eapply blown_trans; eauto.
      * splits; auto; [split; [exact (hhas_self Hh0 Hs')|exact Ra]|]. eapply blown_trans; [|exact B]. eapply quiet_trans; eauto.
Qed.

Lemma hash_modify_rb s a lk x :
    hrep s a -> inv hd (bget LO s) (els SO a) lk -> cget LO s = length lk ->
    nearly SO (val (bget LO s)) x a -> In x lk ->
    wp (l_modify_rb LO x)
       (fun r s' => cget LO s' = cget LO s /\ quiet throws (tk (bget LO s)) (tk (bget LO s')) /\
          mem (bget LO s') = mem (bget LO s) /\
          if r : bool then
            (forall y, In y lk -> y <> x -> ~ aconf SO (val (bget LO s) x) (val (bget LO s) y)) /\
            exists a', hrep s' a' /\ amov SO (val (bget LO s)) x a a' /\ aok SO (val (bget LO s)) a'
          else
            hrep s' a /\ exists y, In y lk /\ y <> x /\ aconf SO (val (bget LO s) x) (val (bget LO s) y))
       (fun s' => hrep s' a /\ cget LO s' = cget LO s /\ mem (bget LO s') = mem (bget LO s) /\
          blown throws (tk (bget LO s)) (tk (bget LO s')))
       s.
Proof.
  destruct s as (t, s), a as ((n, I), a). intros (Hh & Rp) Iv Cg (v0 & Ev0 & So & Ao0) Ix. cbn [fst snd] in *.
  change (bget LO (t, s)) with (bget L s) in *. change (cget LO (t, s)) with (cget L s) in *.
  change (els SO ((n, I), a)) with (elems I :: els S a) in Iv. change (kok (hkind key eq hash uniq)) with hok in So.
  assert (Ao : nearly S (val (bget L s)) x a) by (exists v0; auto).
  assert (Pl := inv_hd Iv). assert (Iv' := inv_tl Iv). assert (Pl' := Permutation_sym Pl). assert (ND := hhas_nd Hh).
  cbn [snd] in ND. apply NoDup_cons_iff in ND as (_ & ND).
  assert (Hh0 := Hh). destruct Hh as (En & Hn & W & U & Hs). cbn [fst snd] in *. subst n. assert (Hnp := tabled_pos Hn).
  assert (Sz : length (elems I) = cget L s) by (rewrite Cg; now apply Permutation_length).
  assert (Ix' : In x (elems I)) by (eapply Permutation_in; eauto).
  assert (LV : forall y, In y (elems I) -> live (bget L s) y).
  { intros y Iy. apply (i_live Iv). eapply Permutation_in; eauto. }
  assert (Fe : forall n, val (bget L (adv L n s)) = val (bget L s)) by (intros; unfold Layer.val; erewrite adv_mem by exact O; reflexivity).
  assert (Sz1 : length (elems I) <= Datatypes.S (cget L s)) by (rewrite Sz; apply le_S, le_n).
  assert (InP : Ro throws t s (in_place throws key eq uniq L x (key (val (bget L s) x)) (position (hash (key (val (bget L s) x))) (bc t)))
      (fun r => r = true <-> hok (val (bget L s)) (bc t, I))).
  { eapply (@in_place_ok V K throws pick dv key eq hash uniq hd L S rep shell O HO t s I []); auto.
    rewrite app_nil_r. exact Hs. }
  assert (CLx : exists G, classes (val (bget L s)) (bc t) (rem_items x I) G).
  { destruct So as (G0 & C0). exists (remc x G0). eapply classes_ext; [exact (classes_rem x C0)|]. cbn [fst snd]. intros y Y. apply Ev0.
    rewrite elems_rem in Y. apply in_remove in Y. tauto. }
  set (vl := val (bget L s)) in *.
  assert (Sup : forall n, quiet throws (tk (bget L s)) n ->
     wp (l_modify_rb L x) (fun r s' => cget L s' = cget L s /\ quiet throws n (tk (bget L s')) /\ mem (bget L s') = mem (bget L s) /\
         if r : bool then
            (forall y, In y lk -> y <> x -> ~ aconf S (vl x) (vl y)) /\
            exists a', rep s' a' /\ amov S vl x a a' /\ aok S vl a'
          else
            rep s' (a) /\ exists y, In y lk /\ y <> x /\ aconf S (vl x) (vl y))
       (fun s' => cget L s' = cget L s /\ rep s' (a) /\ mem (bget L s') = mem (bget L s) /\ blown throws n (tk (bget L s'))) (adv L n s)).
  { intros n q. eapply wp_conseq.
    { apply (o_modify_rb O) with (a := a) (lk := lk) (x := x); auto.
      - now apply (o_repb O).
      - eapply inv_mem; [|exact Iv']. symmetry. eapply adv_mem; exact O.
      - erewrite adv_cget by exact O. exact Cg.
      - now rewrite Fe. }
    + intros r s' (C & Q & M & H). erewrite adv_cget in C by exact O. erewrite adv_tk in Q by exact O. rewrite Fe in H. erewrite adv_mem in M by exact O. auto.
    + intros s' (Ra & C & M & B). erewrite adv_cget in C by exact O. erewrite adv_tk in B by exact O. erewrite adv_mem in M by exact O. auto. }
  assert (Fail : forall n, blown throws (tk (bget L s)) n -> hrep (t, adv L n s) ((bc t, I), a) /\ cget LO (t, adv L n s) = cget L s /\
      mem (bget LO (t, adv L n s)) = mem (bget L s) /\ blown throws (tk (bget L s)) (tk (bget LO (t, adv L n s)))).
  { intros n B. tidy. erewrite adv_cget, adv_tk, adv_mem by exact O. splits; auto. split; [exact Hh0|now apply (o_repb O)]. }
  cbn [l_modify_rb hashed]. unfold h_modify_rb_. rewrite <- (adv_self O s) at 1. eapply wp_oval; [exact O|now apply LV|]. fold vl.
  eapply Ro_wpn; [apply bucket_ro| |exact Fail]. intros buc n1 -> q1.
  eapply Ro_wpn; [exact InP| |intros n B; apply Fail; eapply blown_trans; eauto].
  intros b n2 Hb q2. assert (q0 : quiet throws (tk (bget L s)) n2) by (eapply quiet_trans; eauto). destruct b.
  - assert (So' : hok vl (bc t, I)) by now apply Hb. apply wp_sup. eapply wp_conseq; [apply (Sup n2 q0)| |].
    + intros r s' (C & Q & M & H). tidy. splits; auto; [eapply quiet_trans; eauto|]. destruct r.
      * destruct H as (Nc & a' & Ra & Am & Aa). split.
        -- intros y Iy N [E|E]; [|exact (Nc y Iy N E)].
           eapply (hok_noconf HO (vl := vl) (x := x) (y := y)); [exact So'|exact Ix'|eapply Permutation_in; eauto|exact N|exact E].
        -- exists ((bc t, I), a'). split; [split; auto|]. split; [split; [now left|exact Am]|]. split; auto.
      * destruct H as (Ra & y & Iy & N & Cy). split; [split; auto|]. exists y. splits; auto. now right.
    + intros s' (C & Ra & M & B). tidy. splits; auto; [split; auto|]. eapply blown_trans; eauto.
  - destruct CLx as (G & CL). eapply wp_conseq.
    { apply (@h_move_spec V K throws pick dv hd key eq hash uniq L S rep shell O HO t s n2 I G x (key (vl x)) (ret (position (hash (key (vl x))) (bc t))) (l_modify_rb L x)
        (fun n' r s' => quiet throws n' (tk (bget L s')) /\ mem (bget L s') = mem (bget L s) /\
         if r : bool then
            (forall y, In y lk -> y <> x -> ~ aconf S (vl x) (vl y)) /\
            exists a', rep s' a' /\ amov S vl x a a' /\ aok S vl a'
          else
            rep s' a /\ exists y, In y lk /\ y <> x /\ aconf S (vl x) (vl y))
        (fun n' s' => rep s' a /\ mem (bget L s') = mem (bget L s) /\ blown throws n' (tk (bget L s')))); auto.
      - now rewrite Sz.
      - intros h'. now apply Ro_ret.
      - intros n' q'. apply Sup. eapply quiet_trans; eauto. }
    + intros r (t', s') (n' & h' & q' & Et & D). tidy. subst t'.
      assert (qq : quiet throws (tk (bget L s)) n') by (eapply quiet_trans; eauto).
      destruct D as [(-> & Uq & (y & Iy & Ny & Cy) & -> & Hs')|(C & (Q & M & H) & D)].
      * erewrite adv_cget, adv_tk, adv_mem by exact O. splits; auto.
        -- split; [exact (hhas_self Hh0 Hs')|now apply (o_repb O)].
        -- exists y. splits; auto; [eapply Permutation_in; eauto|]. left. split; auto.
      * splits; auto; [eapply quiet_trans; eauto|]. destruct r.
        -- destruct H as (Nc & a' & Ra & Am & Aa). destruct D as (G' & A & Hs').
           destruct (@moved_arr t vl vl I G G' x (key (vl x)) Hh0 Ix' CL A eq_refl (fun y _ N => eq_refl)) as (Mv & Ok' & W' & U' & Nc' & Pe & _).
           split.
           ++ intros y Iy N [E|E]; [|exact (Nc y Iy N E)]. apply (Nc' y); auto. exact (Permutation_in y Pl' Iy).
           ++ exists ((bc t, flat G'), a'). split; [split; [exact (hhas_set Hh0 W' U' Hs')|exact Ra]|]. split; split; auto.
        -- destruct H as (Ra & y & Iy & N & Cy). split; [split; [exact (hhas_self Hh0 D)|exact Ra]|]. exists y. splits; auto. now right.
    + intros (t', s') (h' & Et & Hs' & D). tidy. subst t'. destruct D as [(n' & B & ->)|(n' & q' & C & Ra & M & B)].
      * erewrite adv_cget, adv_tk, adv_mem by exact O. splits; auto; [split; [exact (hhas_self Hh0 Hs')|now apply (o_repb O)]|]. eapply blown_trans; eauto.
      * splits; auto; [split; [exact (hhas_self Hh0 Hs')|exact Ra]|]. eapply blown_trans; [|exact B]. eapply quiet_trans; eauto.
Qed.

Lemma hash_check_rb s a lk x :
    hrep s a -> inv hd (bget LO s) (els SO a) lk -> cget LO s = length lk ->
    nearly SO (val (bget LO s)) x a -> In x lk ->
    wp (l_check_rb LO x)
       (fun r s' => hrep s' a /\ cget LO s' = cget LO s /\ quiet throws (tk (bget LO s)) (tk (bget LO s')) /\
          mem (bget LO s') = mem (bget LO s) /\ (r = true -> aok SO (val (bget LO s)) a) /\
          (aok SO (val (bget LO s)) a -> r = true))
       (fun s' => hrep s' a /\ cget LO s' = cget LO s /\ mem (bget LO s') = mem (bget LO s) /\
          blown throws (tk (bget LO s)) (tk (bget LO s')))
       s.
Proof.
  destruct s as (t, s), a as ((n, I), a). intros (Hh & Rp) Iv Cg (v0 & Ev0 & So & Ao0) Ix. cbn [fst snd] in *.
  change (bget LO (t, s)) with (bget L s) in *. change (cget LO (t, s)) with (cget L s) in *.
  change (els SO ((n, I), a)) with (elems I :: els S a) in Iv. change (kok (hkind key eq hash uniq)) with hok in So.
  assert (Ao : nearly S (val (bget L s)) x a) by (exists v0; auto).
  assert (Pl := inv_hd Iv). assert (Iv' := inv_tl Iv). assert (Pl' := Permutation_sym Pl). assert (ND := hhas_nd Hh).
  cbn [snd] in ND. apply NoDup_cons_iff in ND as (_ & ND).
  assert (Hh0 := Hh). destruct Hh as (En & Hn & W & U & Hs). cbn [fst snd] in *. subst n. assert (Hnp := tabled_pos Hn).
  assert (Sz : length (elems I) = cget L s) by (rewrite Cg; now apply Permutation_length).
  assert (Ix' : In x (elems I)) by (eapply Permutation_in; eauto).
  assert (LV : forall y, In y (elems I) -> live (bget L s) y).
  { intros y Iy. apply (i_live Iv). eapply Permutation_in; eauto. }
  assert (Fe : forall n, val (bget L (adv L n s)) = val (bget L s)) by (intros; unfold Layer.val; erewrite adv_mem by exact O; reflexivity).
  assert (Sz1 : length (elems I) <= Datatypes.S (cget L s)) by (rewrite Sz; apply le_S, le_n).
  assert (InP : Ro throws t s (in_place throws key eq uniq L x (key (val (bget L s) x)) (position (hash (key (val (bget L s) x))) (bc t)))
      (fun r => r = true <-> hok (val (bget L s)) (bc t, I))).
  { eapply (@in_place_ok V K throws pick dv key eq hash uniq hd L S rep shell O HO t s I []); auto.
    rewrite app_nil_r. exact Hs. }
  assert (CLx : exists G, classes (val (bget L s)) (bc t) (rem_items x I) G).
  { destruct So as (G0 & C0). exists (remc x G0). eapply classes_ext; [exact (classes_rem x C0)|]. cbn [fst snd]. intros y Y. apply Ev0.
    rewrite elems_rem in Y. apply in_remove in Y. tauto. }
  set (vl := val (bget L s)) in *.
  assert (Fail : forall n, blown throws (tk (bget L s)) n -> hrep (t, adv L n s) ((bc t, I), a) /\ cget LO (t, adv L n s) = cget L s /\
      mem (bget LO (t, adv L n s)) = mem (bget L s) /\ blown throws (tk (bget L s)) (tk (bget LO (t, adv L n s)))).
  { intros n B. tidy. erewrite adv_cget, adv_tk, adv_mem by exact O. splits; auto. split; [exact Hh0|now apply (o_repb O)]. }
  cbn [l_check_rb hashed]. unfold h_check_rb_. rewrite <- (adv_self O s) at 1. eapply wp_oval; [exact O|now apply LV|]. fold vl.
  eapply Ro_wpn; [apply bucket_ro| |exact Fail]. intros buc n1 -> q1.
  eapply Ro_wpn; [exact InP| |intros n B; apply Fail; eapply blown_trans; eauto].
  intros b n2 Hb q2. assert (q0 : quiet throws (tk (bget L s)) n2) by (eapply quiet_trans; eauto). destruct b.
  - assert (So' : hok vl (bc t, I)) by now apply Hb. apply wp_sup. eapply wp_conseq.
    { apply (o_check_rb O) with (a := a) (lk := lk) (x := x); auto.
      - now apply (o_repb O).
      - eapply inv_mem; [|exact Iv']. symmetry. eapply adv_mem; exact O.
      - erewrite adv_cget by exact O. exact Cg.
      - now rewrite Fe. }
    + intros r s' (Ra & C & Q & M & H1 & H2). erewrite adv_cget in C by exact O. erewrite adv_tk in Q by exact O. rewrite Fe in *. erewrite adv_mem in M by exact O.
      tidy. splits; auto.
      * split; auto.
      * eapply quiet_trans; eauto.
      * intros E. split; auto.
      * intros (_ & E). auto.
    + intros s' (Ra & C & M & B). erewrite adv_cget in C by exact O. erewrite adv_tk in B by exact O. erewrite adv_mem in M by exact O.
      tidy. splits; auto; [split; auto|]. eapply blown_trans; eauto.
  - apply wp_ret. tidy. erewrite adv_cget, adv_tk, adv_mem by exact O. splits; auto.
    + split; [exact Hh0|now apply (o_repb O)].
    + discriminate.
    + intros (E & _). now apply Hb in E.
Qed.

Lemma hash_modify s a lk x :
    hrep s a -> inv hd (bget LO s) (els SO a) lk -> cget LO s = length lk ->
    nearly SO (val (bget LO s)) x a -> In x lk ->
    wp (l_modify LO x)
       (fun r s' => cget LO s' = cget LO s /\ quiet throws (tk (bget LO s)) (tk (bget LO s')) /\
          mem (bget LO s') = mem (bget LO s) /\
          if r : bool then
            (forall y, In y lk -> y <> x -> ~ aconf SO (val (bget LO s) x) (val (bget LO s) y)) /\
            exists a', hrep s' a' /\ amov SO (val (bget LO s)) x a a' /\ aok SO (val (bget LO s)) a'
          else
            hrep s' (arem SO x a) /\
            exists y, In y lk /\ y <> x /\ aconf SO (val (bget LO s) x) (val (bget LO s) y))
       (fun s' => hrep s' (arem SO x a) /\ cget LO s' = cget LO s /\ mem (bget LO s') = mem (bget LO s) /\
          blown throws (tk (bget LO s)) (tk (bget LO s')))
       s.
Proof.
  destruct s as (t, s), a as ((n, I), a). intros (Hh & Rp) Iv Cg (v0 & Ev0 & So & Ao0) Ix. cbn [fst snd] in *.
  change (bget LO (t, s)) with (bget L s) in *. change (cget LO (t, s)) with (cget L s) in *.
  change (els SO ((n, I), a)) with (elems I :: els S a) in Iv. change (kok (hkind key eq hash uniq)) with hok in So.
  assert (Ao : nearly S (val (bget L s)) x a) by (exists v0; auto).
  assert (Pl := inv_hd Iv). assert (Iv' := inv_tl Iv). assert (Pl' := Permutation_sym Pl). assert (ND := hhas_nd Hh).
  cbn [snd] in ND. apply NoDup_cons_iff in ND as (_ & ND).
  assert (Hh0 := Hh). destruct Hh as (En & Hn & W & U & Hs). cbn [fst snd] in *. subst n. assert (Hnp := tabled_pos Hn).
  assert (Sz : length (elems I) = cget L s) by (rewrite Cg; now apply Permutation_length).
  assert (Ix' : In x (elems I)) by (eapply Permutation_in; eauto).
  assert (LV : forall y, In y (elems I) -> live (bget L s) y).
  { intros y Iy. apply (i_live Iv). eapply Permutation_in; eauto. }
  assert (Fe : forall n, val (bget L (adv L n s)) = val (bget L s)) by (intros; unfold Layer.val; erewrite adv_mem by exact O; reflexivity).
  assert (Sz1 : length (elems I) <= Datatypes.S (cget L s)) by (rewrite Sz; apply le_S, le_n).
  assert (InP : Ro throws t s (in_place throws key eq uniq L x (key (val (bget L s) x)) (position (hash (key (val (bget L s) x))) (bc t)))
      (fun r => r = true <-> hok (val (bget L s)) (bc t, I))).
  { eapply (@in_place_ok V K throws pick dv key eq hash uniq hd L S rep shell O HO t s I []); auto.
    rewrite app_nil_r. exact Hs. }
  assert (CLx : exists G, classes (val (bget L s)) (bc t) (rem_items x I) G).
  { destruct So as (G0 & C0). exists (remc x G0). eapply classes_ext; [exact (classes_rem x C0)|]. cbn [fst snd]. intros y Y. apply Ev0.
    rewrite elems_rem in Y. apply in_remove in Y. tauto. }
  set (vl := val (bget L s)) in *.
  assert (Sup : forall n, quiet throws (tk (bget L s)) n ->
     wp (l_modify L x) (fun r s' => cget L s' = cget L s /\ quiet throws n (tk (bget L s')) /\ mem (bget L s') = mem (bget L s) /\
         if r : bool then
            (forall y, In y lk -> y <> x -> ~ aconf S (vl x) (vl y)) /\
            exists a', rep s' a' /\ amov S vl x a a' /\ aok S vl a'
          else
            rep s' (arem S x a) /\ exists y, In y lk /\ y <> x /\ aconf S (vl x) (vl y))
       (fun s' => cget L s' = cget L s /\ rep s' (arem S x a) /\ mem (bget L s') = mem (bget L s) /\ blown throws n (tk (bget L s'))) (adv L n s)).
  { intros n q. eapply wp_conseq.
    { apply (o_modify O) with (a := a) (lk := lk) (x := x); auto.
      - now apply (o_repb O).
      - eapply inv_mem; [|exact Iv']. symmetry. eapply adv_mem; exact O.
      - erewrite adv_cget by exact O. exact Cg.
      - now rewrite Fe. }
    + intros r s' (C & Q & M & H). erewrite adv_cget in C by exact O. erewrite adv_tk in Q by exact O. rewrite Fe in H. erewrite adv_mem in M by exact O. auto.
    + intros s' (Ra & C & M & B). erewrite adv_cget in C by exact O. erewrite adv_tk in B by exact O. erewrite adv_mem in M by exact O. auto. }
  assert (Ex : forall n, Forall (fun l => NoDup l /\ In x l /\ length l <= Datatypes.S (cget L (adv L n s))) (els S a)).
  { intros n. erewrite adv_cget by exact O. assert (P := i_perm Iv'). rewrite Forall_forall in P |- *. intros l Hl. specialize (P l Hl).
    splits; [eapply NoDup_perm; [symmetry; exact P|exact (i_nd Iv)]|eapply Permutation_in; [symmetry; exact P|exact Ix]|].
    rewrite (Permutation_length P), Cg. apply le_S, le_n. }
  (* taking the element out of this index alone *)
  assert (Unl : forall h I2 n s', hs h (layout (arr t) (bc t) hd I2) -> wfi (bc t) I2 -> (uniq = true -> single I2) -> NoDup (elems I2) -> In x (elems I2) ->
      rem_items x I2 = rem_items x I -> n = bc t ->
      wp (unlink uniq L x) (fun _ st => exists h' v w, st = (set_hp h' t, s') /\ hs h' (layout (arr t) (bc t) hd (rem_items x I) ++ loose x x v w)) (fun _ => False) (set_hp h t, s')).
  { intros h I2 n s' H2 W2 U2 N2 X2 E2 _. unfold unlink. apply wp_hp1.
    eapply wp_conseq; [eapply (@untracked_lay (arr t) (bc t) hd uniq) with (F := []); rewrite ?app_nil_r; eauto| |easy].
    cbn beta. intros _ h' (v & w & H'). rewrite app_nil_r, E2 in H'. exists h', v, w. split; auto. }
  assert (Hrem : forall h' C s', hs h' (layout (arr t) (bc t) hd (rem_items x I) ++ C) -> rep s' (arem S x a) -> hrep (set_hp h' t, s') (arem SO x ((bc t, I), a))).
  { intros h' C s' H' Ra. split; [|exact Ra]. cbn [fst]. apply hs_l in H'. exact (hhas_set Hh0 (rem_wfi x W) (fun E => rem_single x (U E)) H'). }
  (* what happens once the element is where it belongs *)
  assert (End : forall h I2 n, hs h (layout (arr t) (bc t) hd I2) -> wfi (bc t) I2 -> (uniq = true -> single I2) -> NoDup (elems I2) -> In x (elems I2) ->
      rem_items x I2 = rem_items x I -> hmov key eq hash uniq vl x (bc t, I) (bc t, I2) -> hok vl (bc t, I2) ->
      (forall y, In y lk -> y <> x -> ~ hconf key eq uniq (vl x) (vl y)) -> quiet throws (tk (bget L s)) n ->
      wp (try_catch (b <- supM (l_modify L x) ;; if b : bool then ret true else unlink uniq L x ;;; ret false) (unlink uniq L x ;;; throw))
       (fun r s' => cget LO s' = cget L s /\ quiet throws (tk (bget L s)) (tk (bget LO s')) /\
          mem (bget LO s') = mem (bget L s) /\
          if r : bool then
            (forall y, In y lk -> y <> x -> ~ aconf SO (vl x) (vl y)) /\
            exists a', hrep s' a' /\ amov SO vl x ((bc t, I), a) a' /\ aok SO vl a'
          else
            hrep s' (arem SO x ((bc t, I), a)) /\
            exists y, In y lk /\ y <> x /\ aconf SO (vl x) (vl y))
       (fun s' => hrep s' (arem SO x ((bc t, I), a)) /\ cget LO s' = cget L s /\ mem (bget LO s') = mem (bget L s) /\
          blown throws (tk (bget L s)) (tk (bget LO s')))
       (set_hp h t, adv L n s)).
  { intros h I2 n H2 W2 U2 N2 X2 E2 Mv Ok2 Nc2 q. apply wp_try, wp_bind, wp_sup. eapply wp_conseq; [apply (Sup n q)| |].
    - intros r s' (C & Q & M & H). assert (qq : quiet throws (tk (bget L s)) (tk (bget L s'))) by (eapply quiet_trans; eauto). destruct r.
      + apply wp_ret. tidy. splits; auto. destruct H as (Nc & a' & Ra & Am & Aa).
        * intros y Iy N [E|E]; [exact (Nc2 y Iy N E)|exact (Nc y Iy N E)].
        * destruct H as (Nc & a' & Ra & Am & Aa). exists ((bc t, I2), a'). split; [split; [exact (hhas_set Hh0 W2 U2 H2)|exact Ra]|]. split; split; auto.
      + apply wp_bind. cbn [fst]. eapply wp_conseq; [eapply Unl; eauto| |easy]. cbn beta. intros ? st (h' & v & w & -> & H'). apply wp_ret.
        tidy. destruct H as (Ra & y & Iy & N & Cy). splits; auto; [exact (Hrem _ _ _ H' Ra)|]. exists y. splits; auto. now right.
    - intros s' (C & Ra & M & B). apply wp_bind. cbn [fst]. eapply wp_conseq; [eapply Unl; eauto| |easy]. cbn beta. intros ? st (h' & v & w & -> & H'). apply wp_throw.
      tidy. splits; auto; [exact (Hrem _ _ _ H' Ra)|]. eapply blown_trans; eauto. }
  assert (Unl0 : forall n, wp (unlink uniq L x) (fun _ st => exists h' v w, st = (set_hp h' t, adv L n s) /\
      hs h' (layout (arr t) (bc t) hd (rem_items x I) ++ loose x x v w)) (fun _ => False) (t, adv L n s)).
  { intros n. assert (H := Unl (hp t) I (bc t) (adv L n s)). rewrite set_hp_self in H. apply H; auto. }
  assert (Out : forall n h', wp (supM (l_extract L x)) (fun _ st => exists s', st = (set_hp h' t, s') /\ rep s' (arem S x a) /\ cget L s' = cget L s /\ bget L s' = bget L (adv L n s))
      (fun _ => False) (set_hp h' t, adv L n s)).
  { intros n h'. apply wp_sup. eapply wp_conseq; [apply (o_extract O) with (a := a); [now apply (o_repb O)|apply Ex]| |easy].
    cbn beta. intros _ s' (Ra & C & B). erewrite adv_cget in C by exact O. eauto 8. }
  assert (Fail : forall n, blown throws (tk (bget L s)) n -> forall (Q : nat * bool -> ost L -> Prop),
     wp (h_extract_ uniq L x ;;; throw) Q
       (fun s' : ost L => hrep s' (arem SO x ((bc t, I), a)) /\ cget LO s' = cget L s /\ mem (bget LO s') = mem (bget L s) /\
          blown throws (tk (bget L s)) (tk (bget LO s'))) (t, adv L n s)).
  { intros n B Q. unfold h_extract_. apply wp_bind, wp_bind. eapply wp_conseq; [apply Unl0| |easy]. cbn beta. intros ? st (h' & v & w & -> & H').
    eapply wp_conseq; [apply Out| |easy]. cbn beta. intros ? st (s' & -> & Ra & C & Bg). apply wp_throw. tidy. splits; auto.
    - exact (Hrem _ _ _ H' Ra).
    - rewrite Bg. eapply adv_mem; exact O.
    - rewrite Bg. erewrite adv_tk by exact O. exact B. }
  cbn [l_modify hashed]. unfold h_modify_. apply wp_bind, wp_try. rewrite <- (adv_self O s) at 1. eapply wp_oval; [exact O|now apply LV|]. fold vl.
  eapply Ro_wpn; [apply bucket_ro| |intros n B; now apply Fail]. intros buc n1 -> q1.
  eapply Ro_wpn; [exact InP| |intros n B; apply Fail; eapply blown_trans; eauto].
  intros b n2 Hb q2. assert (q0 : quiet throws (tk (bget L s)) n2) by (eapply quiet_trans; eauto). apply wp_ret. apply wp_bind. destruct b.
  - assert (So' : hok vl (bc t, I)) by now apply Hb. apply wp_ret. assert (H := End (hp t) I n2). rewrite set_hp_self in H. apply H; auto; clear H.
    + now left.
    + intros y Iy N E. eapply (hok_noconf HO (vl := vl) (x := x) (y := y)); [exact So'|exact Ix'|eapply Permutation_in; eauto|exact N|exact E].
  - apply wp_bind. eapply wp_conseq; [apply Unl0| |easy]. cbn beta. intros ? st (h1 & v & w & -> & H1).
    destruct CLx as (G & CL). apply wp_try. eapply wp_oval; [exact O|now apply LV|]. fold vl.
    assert (Sub : forall y, In y (elems (rem_items x I)) -> In y (elems I) /\ y <> x).
    { intros y Y. rewrite elems_rem in Y. apply in_remove in Y. auto. }
    eapply Ro_wpn.
    { eapply (@link_point_ok V K throws pick dv key eq hash uniq hd L S rep shell O HO (set_hp h1 t) s (rem_items x I) (loose x x v w)); eauto.
      - exact (rem_wfi x W).
      - intros E. exact (rem_single x (U E)).
      - intros y Y. apply LV. now apply Sub.
      - rewrite elems_rem. eapply Nat.le_trans; [apply remove_length_le|exact Sz1]. }
    + intros (ok, pos) n3 Hp q3. assert (q03 : quiet throws (tk (bget L s)) n3) by (eapply quiet_trans; eauto). destruct ok.
      * apply wp_bind. eapply wp_conseq; [eapply (@do_link_ok V K dv hd key eq hash uniq L (set_hp h1 t) s (adv L n3 s) (rem_items x I) G x (key (vl x)) pos v w []); auto| |].
        -- exact (rem_wfi x W).
        -- cbn beta. intros ? st (h2 & G' & -> & A & H2). rewrite app_nil_r in H2. cbn [set_hp arr bc] in *. apply wp_ret.
           destruct (@moved_arr t vl vl I G G' x (key (vl x)) Hh0 Ix' CL A eq_refl (fun y _ N => eq_refl)) as (Mv & Ok' & W' & U' & Nc' & Pe & Er).
           eapply (End h2 (flat G') n3); auto.
           ++ eapply NoDup_perm; [symmetry; exact Pe|exact ND].
           ++ eapply Permutation_in; [symmetry; exact Pe|exact Ix'].
           ++ intros y Iy N. apply Nc'; auto. exact (Permutation_in y Pl' Iy).
        -- easy.
      * inversion Hp as [|?|y Ux Y Ey Ep]; subst pos. apply wp_bind. eapply wp_conseq; [apply Out| |easy]. cbn beta.
        intros ? st (s' & -> & Ra & C & Bg). apply wp_ret, wp_ret. tidy. splits; auto.
        -- rewrite Bg. erewrite adv_tk by exact O. exact q03.
        -- rewrite Bg. eapply adv_mem; exact O.
        -- exact (Hrem _ _ _ H1 Ra).
        -- assert (In y (elems (rem_items x I))) as Z by (destruct CL as (-> & _); rewrite elems_flat; exact Y). destruct (Sub y Z) as (Y1 & Ny).
           exists y. splits; auto; [eapply Permutation_in; eauto|]. left. split; auto.
    + intros n B. apply wp_bind. eapply wp_conseq; [apply Out| |easy]. cbn beta. intros ? st (s' & -> & Ra & C & Bg). apply wp_throw. tidy. splits; auto.
      * exact (Hrem _ _ _ H1 Ra).
      * rewrite Bg. eapply adv_mem; exact O.
      * rewrite Bg. erewrite adv_tk by exact O. eapply blown_trans; eauto.
Qed.

Theorem hashed_ok : OK throws pick dv hd LO SO hrep hshell.
Proof.
  split.
  - intros b (h, s). cbn. apply (o_bb O).
  - intros (h, s). cbn. now rewrite (o_gs O).
  - intros b b' (h, s). cbn. now rewrite (o_ss O).
  - intros n (h, s). cbn. apply (o_bc O).
  - intros b (h, s). cbn. apply (o_cb O).
  - intros n (h, s). cbn. apply (o_cc O).
  - intros b (h, s) a (H & R). split; auto. now apply (o_repb O).
  - intros n (h, s) a (H & R). split; auto. now apply (o_repc O).
  - intros b (h, s) (H & N & N' & R). split; [|split; [|split]]; auto. cbn. now apply (o_shellb O).
  - intros n (h, s) (H & N & N' & R). split; [|split; [|split]]; auto. cbn. now apply (o_shellc O).
  - intros (h, s) a ((_ & Hn & _ & _ & Hs) & R). split; [|split; [|split]].
    + exact Hn.
    + destruct (layout_hdnx _ _ _ Hs) as (w & E). cbn [fst] in *. now rewrite E.
    + destruct (layout_hdpr _ _ _ Hs) as (w & E). cbn [fst] in *. now rewrite E.
    + now apply (o_shell O) with (a := snd a).
  - intros vl vl' (l, a) (H & R) E. split.
    + cbn. eapply hok_ext; [exact H|]. intros y I. apply (E y (elems (snd l))); cbn; auto.
    + cbn. eapply (o_ext O); [exact R|]. intros y l' I J. apply (E y l'); cbn; auto.
  - intros vl x (l, a) (H & R). split; cbn; [|now apply (o_okrem O)]. now apply hok_rem.
  - intros (h, s) (l, a) x (H & R). cbn. f_equal; [apply elems_rem|eapply (o_elrem O); eauto].
  - intros vl (l, a). split; cbn; [now left|apply (o_same O)].
  - intros vl (l, a) (l', a') (E & H). cbn in *. constructor; [exact (hsame_els E)|]. eapply (o_sameel O); eauto.
  - intros vl (l, a) (l', a') (E & H) (H1 & H2). cbn in *. split; cbn; [exact (hsame_ok HO E H1)|]. eapply (o_sameok O); eauto.
  - intros vl vl' (l, a) (l', a') (E & H) Ev. cbn in *. split; [eapply hsame_ext; [exact E|]; intros y I; apply (Ev y (elems (snd l))); auto|].
    eapply (o_sameext O); [exact H|]. intros y l0 I J. apply (Ev y l0); auto.
  - intros var vl hint (l, a) x (l', a') (E & H). cbn in *. constructor; [exact (hins_els E)|]. eapply (o_insel O); eauto.
  - intros vl x (l, a) (l', a') (E & H). cbn in *. f_equal; [exact (hmov_rem E)|]. eapply (o_movrem O); eauto.
  - intros vl x (l, a) (l', a') (E & H). cbn in *. constructor; [exact (hmov_els E)|]. eapply (o_movel O); eauto.
  - apply hash_insert.
  - apply hash_extract.
  - apply hash_delete.
  - apply hash_clear.
  - apply hash_replace.
  - apply hash_modify.
  - apply hash_modify_rb.
  - apply hash_check_rb.
Qed.
End Hash.
