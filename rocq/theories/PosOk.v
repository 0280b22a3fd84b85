(** A sequenced or random access index over a correct layer is a correct layer. *)
From Verif Require Import Prelude Layer LayerBase PosIdx.
Set Implicit Arguments.

(** specification of both kinds *)
Definition pos_kind (V : Type) : kind V :=
  @mkK V (list node) (fun l => l) (fun _ _ => True) (fun _ => eq) (fun x l => remove Nat.eq_dec x l)
    (fun _ _ l x l' => l' = l ++ [x]) (fun _ _ l l' => l' = l) (fun _ _ => False).

Section P.
Variable V : Type.
Variable throws : nat -> bool.
Variable pick : list node -> node.
Variable dv : V.
Hypothesis pick_ok : forall l, ~ In (pick l) (null :: l).
Variable hd : node.
Variable L : Layer V.
Variable S : Spec V.
Variable rep : St L -> AV S -> Prop.
Variable shell : St L -> Prop.
Hypothesis O : OK throws pick dv hd L S rep shell.

Variable T : Type.
Variable prep : M (T * St L) unit.
Variable add del : node -> M T unit.
Variable walk : M (T * St L) unit.
Variable wipe : M T unit.
(** [has t l]: the own part represents the sequence [l]; [room]: after [prep] *)
Variable has : T -> list node -> Prop.
Variable room tshell : T -> Prop.
Hypothesis has_nd : forall t l, has t l -> NoDup (hd :: l).
Hypothesis has_shell : forall t l, has t l -> tshell t.
Hypothesis prep_ok : forall t l s, has t l ->
  wp prep (fun _ st => exists t' n, st = (t', adv L n s) /\ has t' l /\ room t' /\ quiet throws (tk (bget L s)) n)
          (fun st => exists t' n, st = (t', adv L n s) /\ has t' l /\ blown throws (tk (bget L s)) n) (t, s).
Hypothesis add_ok : forall t l x, has t l -> room t -> ~ In x (null :: hd :: l) ->
  wp (add x) (fun _ t' => has t' (l ++ [x])) (fun _ => False) t.
Hypothesis del_ok : forall t l1 x l2, has t (l1 ++ x :: l2) ->
  wp (del x) (fun _ t' => has t' (l1 ++ l2)) (fun _ => False) t.
Hypothesis walk_ok : forall t s l, has t l -> length l <= cget L s -> NoDup (map fst (mem (bget L s))) ->
  (forall x, In x l -> live (bget L s) x) ->
  wp walk (fun _ st => tshell (fst st) /\ snd st = bset L (mkB (without l (mem (bget L s))) (tk (bget L s))) s)
          (fun _ => False) (t, s).
Hypothesis wipe_ok : forall t, tshell t -> wp wipe (fun _ t' => has t' []) (fun _ => False) t.

Notation LP := (positional L prep add del walk wipe).
Notation SP := (cons_spec (pos_kind V) S).
Definition pos_rep (st : T * St L) (a : list node * AV S) : Prop := has (fst st) (fst a) /\ rep (snd st) (snd a).
Definition pos_shell (st : T * St L) : Prop := tshell (fst st) /\ shell (snd st).
Notation val := (val dv).

Lemma inv_tail b l ls lk : @inv V hd b (l :: ls) lk -> inv hd b ls lk.
Proof. intros [A B C D E]. split; auto. now inversion B. Qed.
Lemma inv_perm b l ls lk : @inv V hd b (l :: ls) lk -> Permutation l lk.
Proof. intros [A B C D E]. now inversion B. Qed.

Ltac pre := cbn [fst snd] in *;
  repeat match goal with
  | H : context[bget LP (?t, ?s)] |- _ => change (bget LP (t, s)) with (bget L s) in H
  | |- context[bget LP (?t, ?s)] => change (bget LP (t, s)) with (bget L s)
  | H : context[cget LP (?t, ?s)] |- _ => change (cget LP (t, s)) with (cget L s) in H
  | |- context[cget LP (?t, ?s)] => change (cget LP (t, s)) with (cget L s)
  | H : context[els SP (?l, ?a)] |- _ => change (els SP (l, a)) with (l :: els S a) in H
  | H : context[arem SP ?x (?l, ?a)] |- _ => change (arem SP x (l, a)) with (remove Nat.eq_dec x l, arem S x a) in H
  | |- context[arem SP ?x (?l, ?a)] => change (arem SP x (l, a)) with (remove Nat.eq_dec x l, arem S x a)
  end.

Lemma wp_pdel {B} (k : unit -> M (T * St L) B) Q E t s x : live (bget L s) x ->
  wp (k tt) Q E (t, bset L (mkB (mdel (mem (bget L s)) x) (tk (bget L s))) s) ->
  wp (bind (supM (basM L (delete_node x))) k) Q E (t, s).
Proof.
  intros (v & Lk) H. apply wp_bind, wp_sup, wp_lens. unfold delete_node, destroy_value, deallocate_node, bind, wp at 1.
  rewrite Lk. cbn [mem tk]. rewrite look_mset, Nat.eqb_refl, Lk. cbn [mem tk]. now rewrite mdel_mset.
Qed.

Theorem pos_ok : OK throws pick dv hd LP SP pos_rep pos_shell.
Proof.
  split.
  - intros b (h, s). cbn. apply (o_bb O).
  - intros (h, s). cbn. now rewrite (o_gs O).
  - intros b b' (h, s). cbn. now rewrite (o_ss O).
  - intros n (h, s). cbn. apply (o_bc O).
  - intros b (h, s). cbn. apply (o_cb O).
  - intros n (h, s). cbn. apply (o_cc O).
  - intros b (h, s) a (H & R). split; auto. now apply (o_repb O).
  - intros n (h, s) a (H & R). split; auto. now apply (o_repc O).
  - intros b (h, s) (H & R). split; auto. cbn. now apply (o_shellb O).
  - intros n (h, s) (H & R). split; auto. cbn. now apply (o_shellc O).
  - intros (h, s) a (H & R). split; [eapply has_shell; eauto|now apply (o_shell O) with (a := snd a)].
  - intros vl vl' (l, a) (H & R) E. split; cbn; auto.
    eapply (o_ext O); [exact R|]. intros y l' I J. apply (E y l'); cbn; auto.
  - intros vl x (l, a) (H & R). split; cbn; auto. now apply (o_okrem O).
  - intros (h, s) (l, a) x (H & R). cbn. f_equal. eapply (o_elrem O); eauto.
  - intros vl (l, a). split; cbn; auto. apply (o_same O).
  - intros vl (l, a) (l', a') (E & H). cbn in *. subst. constructor; auto. eapply (o_sameel O); eauto.
  - intros vl (l, a) (l', a') (E & H) (H1 & H2). cbn in *. split; cbn; auto. eapply (o_sameok O); eauto.
  - intros vl vl' (l, a) (l', a') (E & H) Ev. cbn in *. split; auto. eapply (o_sameext O); [exact H|]. intros y l0 I J. apply (Ev y l0); auto.
  - intros var vl hint (l, a) x (l', a') (E & H). cbn in *. subst. constructor.
    + rewrite Permutation_app_comm. reflexivity.
    + eapply (o_insel O); eauto.
  - intros vl x (l, a) (l', a') (E & H). cbn in *. f_equal; [congruence|]. eapply (o_movrem O); eauto.
  - intros vl x (l, a) (l', a') (E & H). cbn in *. subst. constructor; auto. eapply (o_movel O); eauto.
  - (* insert *)
    intros (t, s) (l, a) lk v hint x var (Hh & Rp) Iv Cg (_ & Ao) Hi Rd. pre.
    assert (Iv' := inv_tail Iv). assert (Pl := inv_perm Iv). cbn [l_insert positional]. unfold p_insert_.
    apply wp_bind. eapply wp_conseq; [apply (prep_ok s Hh)| |].
    + intros _ (t1, s1) (t1' & n & E & H1 & Rm & Q1). injection E as -> ->. apply wp_bind, wp_sup.
      assert (Ea : adv L n s = bset L (mkB (mem (bget L s)) n) s) by reflexivity.
      eapply wp_conseq; [apply (o_insert O) with (a := a) (lk := lk)| |]; rewrite ?Ea, ?(o_bb O), ?(o_cb O); auto.
      * now apply (o_repb O).
      * destruct Iv' as [A1 A2 A3 A4 A5]. split; auto.
      * intros (r, x') s' (a' & R' & C' & Q' & D). cbn [fst snd mem tk] in *. rewrite ?(o_bb O), ?(o_cb O) in *.
        cbn [mem tk] in *. destruct D as [(E & In_ & NC & A & Ok)|(E & X & Ir & Cf & Sm & Mm)].
        -- subst x'. rewrite Nat.eqb_refl.
           assert (Fr : ~ In r (null :: hd :: l)).
           { destruct Iv as [A1 A2 A3 A4 A5]. assert (Ih : In hd (map fst (mem (bget L s)))).
             { destruct (in_dec Nat.eq_dec hd (map fst (mem (bget L s)))); auto. apply look_none in n0. congruence. }
             assert (Il : forall y, In y l -> In y (map fst (mem (bget L s)))).
             { intros y Iy. destruct (A3 y) as (w & Lw); [eapply Permutation_in; eauto|].
               apply look_in, (in_map fst) in Lw. exact Lw. }
             assert (R1 : r = pick (map fst (mem (bget L s))) \/
                          (r = x /\ look (mem (bget L s)) x = Some (Some v) /\ ~ In x lk)).
             { destruct var; cbn in In_, Rd; [left; tauto|right; tauto|right; tauto]. }
             destruct R1 as [->|(-> & Lx & Nx)].
             - assert (Pk := @pick_ok (map fst (mem (bget L s)))). intros [F|[F|F]].
               + apply Pk. left. exact F.
               + apply Pk. right. now rewrite <- F.
               + apply Pk. right. auto.
             - intros [F|[F|F]].
               + subst x. inversion A4 as [|? ? N0 _]. apply N0. apply look_in, (in_map fst) in Lx. exact Lx.
               + subst x. congruence.
               + apply Nx. eapply Permutation_in; eauto. }
           apply wp_bind, wp_own. eapply wp_conseq; [apply (@add_ok t1' l r H1 Rm Fr)| |easy].
           intros ? t2 H2. apply wp_ret. exists (l ++ [r], a'). cbn [fst snd]. pre. splits; auto.
           ++ split; auto.
           ++ eapply quiet_trans; eauto.
           ++ left. splits; auto.
              ** intros y Iy [C|C]; [exact C|now apply (NC y Iy)].
              ** split; cbn; auto.
              ** split; cbn; auto.
        -- rewrite (proj2 (Nat.eqb_neq _ _) E). apply wp_bind, wp_ret, wp_ret. exists (l, a'). pre. splits; auto.
           ++ split; auto.
           ++ eapply quiet_trans; eauto.
           ++ right. splits; auto; [now right|split; cbn; auto].
      * intros s' (a' & R' & C' & Sm & Mm & B). rewrite ?(o_bb O), ?(o_cb O) in *. cbn [mem tk] in *.
        exists (l, a'). pre. splits; auto.
        -- split; auto.
        -- split; cbn; auto.
        -- eapply blown_trans; eauto.
    + intros (t1, s1) (t1' & n & E & H1 & B1). injection E as -> ->. exists (l, a).
      assert (Ea : adv L n s = bset L (mkB (mem (bget L s)) n) s) by reflexivity. pre.
      rewrite Ea, (o_bb O), (o_cb O). splits; auto.
      * split; auto. cbn. now apply (o_repb O).
      * split; cbn; auto. apply (o_same O).
  - (* extract *)
    intros (t, s) (l, a) x (Hh & Rp) F. pre. inversion F as [|? ? (ND & Ix & Sz) F']; subst.
    cbn [l_extract positional]. unfold p_extract_. apply in_split in Ix as (l1 & l2 & ->).
    apply wp_bind, wp_own. eapply wp_conseq; [apply (del_ok _ _ _ Hh)| |easy]. intros ? t' H'.
    apply wp_sup. eapply wp_conseq; [apply (o_extract O) with (a := a); auto| |easy].
    intros ? s' (R' & C' & B'). pre. splits; auto. split; cbn; auto. rewrite remove_mid; auto.
  - (* delete_all *)
    intros (t, s) (l0, a) l ls (Hh & Rp) E Sz ND LV. pre. injection E as -> _. cbn [l_delete_all positional].
    eapply wp_conseq; [apply (walk_ok s Hh Sz ND LV)| |easy]. intros ? (t', s') (Sh & E). cbn [fst snd] in *. subst s'. pre.
    rewrite (o_bb O), (o_cb O). splits; auto. split; auto. cbn. apply (o_shellb O). eapply (o_shell O); eauto.
  - (* clear *)
    intros (t, s) (Ts & Sh). pre. cbn [l_clear positional]. unfold p_clear_.
    apply wp_bind, wp_sup. eapply wp_conseq; [apply (o_clear O); auto| |easy].
    intros ? s' ((a & R' & Fa & Ok) & C' & B'). apply wp_own. eapply wp_conseq; [apply (wipe_ok Ts)| |easy].
    intros ? t' H'. pre. splits; auto. exists ([], a). splits.
    + split; auto.
    + constructor; auto.
    + intros vl. split; cbn; auto.
  - (* replace *)
    intros (t, s) (l, a) lk v x (Hh & Rp) Iv Cg (_ & Ao) Ix. pre. cbn [l_replace positional]. unfold p_replace_.
    apply wp_sup. eapply wp_conseq; [apply (o_replace O) with (a := a) (lk := lk); eauto using inv_tail| |].
    + intros [|] s' (C' & Q' & R'); pre; (split; [auto|split; [auto|]]).
      * destruct R' as (Mm & NC & a' & R2 & Mv & Ok). split; [auto|split].
        -- intros y Iy Ny [C|C]; [exact C|revert C; now apply NC].
        -- exists (l, a'). splits; auto; split; cbn; auto.
      * destruct R' as (Mm & R2 & y & Iy & Ny & C). split; [auto|split; [split; auto|]].
        exists y. splits; auto. now right.
    + intros s' (R' & C' & Mm & B). pre. splits; auto. split; auto.
  - (* modify *)
    intros (t, s) (l, a) lk x (Hh & Rp) Iv Cg (v0 & Ev0 & _ & Ao0) Ix. assert (Ao : nearly S (val (bget L s)) x a) by (exists v0; auto). pre. cbn [l_modify positional]. unfold p_modify_.
    assert (Pl := inv_perm Iv). assert (Nd := has_nd Hh). inversion Nd as [|? ? _ Nd']. subst.
    assert (Ix' : In x l) by (eapply Permutation_in; [symmetry; exact Pl|auto]).
    apply in_split in Ix' as (l1 & l2 & El). rewrite El in Nd'.
    apply wp_try, wp_bind, wp_sup.
    eapply wp_conseq; [apply (o_modify O) with (a := a) (lk := lk); eauto using inv_tail| |].
    + intros [|] s' (C' & Q' & Mm & R').
      * apply wp_ret. pre. (split; [auto|split; [auto|split; [auto|]]]). destruct R' as (NC & a' & R2 & Mv & Ok). split.
        -- intros y Iy Ny [C|C]; [exact C|revert C; now apply NC].
        -- exists (l, a'). splits; auto; split; cbn; auto.
      * destruct R' as (R2 & y & Iy & Ny & C). apply wp_bind, wp_own. rewrite El in Hh.
        eapply wp_conseq; [apply (del_ok _ _ _ Hh)| |easy]. intros ? t' H'. apply wp_ret. pre. (split; [auto|split; [auto|split; [auto|]]]). split.
        -- rewrite El. split; cbn; auto. rewrite remove_mid; auto.
        -- exists y. splits; auto. now right.
    + intros s' (R' & C' & Mm & B). apply wp_bind, wp_own. rewrite El in Hh.
      eapply wp_conseq; [apply (del_ok _ _ _ Hh)| |easy]. intros ? t' H'. apply wp_throw. pre. splits; auto.
      rewrite El. split; cbn; auto. rewrite remove_mid; auto.
  - (* modify_rb *)
    intros (t, s) (l, a) lk x (Hh & Rp) Iv Cg (v0 & Ev0 & _ & Ao0) Ix. assert (Ao : nearly S (val (bget L s)) x a) by (exists v0; auto). pre. cbn [l_modify_rb positional]. unfold p_modify_rb_.
    apply wp_sup. eapply wp_conseq; [apply (o_modify_rb O) with (a := a) (lk := lk); eauto using inv_tail| |].
    + intros [|] s' (C' & Q' & Mm & R'); pre; (split; [auto|split; [auto|split; [auto|]]]).
      * destruct R' as (NC & a' & R2 & Mv & Ok). split.
        -- intros y Iy Ny [C|C]; [exact C|revert C; now apply NC].
        -- exists (l, a'). splits; auto; split; cbn; auto.
      * destruct R' as (R2 & y & Iy & Ny & C). split; [split; auto|].
        exists y. splits; auto. now right.
    + intros s' (R' & C' & Mm & B). pre. splits; auto. split; auto.
  - (* check_rb *)
    intros (t, s) (l, a) lk x (Hh & Rp) Iv Cg (v0 & Ev0 & _ & Ao0) Ix. assert (Ao : nearly S (val (bget L s)) x a) by (exists v0; auto). pre. cbn [l_check_rb positional]. unfold p_check_rb_.
    apply wp_sup. eapply wp_conseq; [apply (o_check_rb O) with (a := a) (lk := lk); eauto using inv_tail| |].
    + intros r s' (R' & C' & Q' & Mm & I1 & I2). pre. splits; auto.
      * split; auto.
      * intros Er. split; cbn; auto.
      * intros (_ & Ok). auto.
    + intros s' (R' & C' & Mm & B). pre. splits; auto. split; auto.
Qed.
End P.
