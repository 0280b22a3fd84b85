(** Copying the links of hashed indices. *)
From Verif Require Import Prelude Layer LayerBase HashModel HashIdx HashHeap HashAlg HashLink HashLay HashOps HashRead HashSpec HashPoint HashPlace HashRehash HashLayer Copy CopyOrd CopyPos.
Set Implicit Arguments.

Section Hash.
Variable mfind : node -> option node.
Variable m : cmap.
Variable f : node -> node.
Variables ho hc : node.
Variable lk : list node.
Hypothesis C : copying mfind m f ho hc lk.
Variable jh : bptr * bptr.
Variable x : hst.
Variable a' : nat.
Variable I : list item.
Notation a := (arr x).
Notation n := (bc x).
Notation xh := (hp x).
Notation D := (layout a n ho I).
Hypothesis W : wfi n I.
Hypothesis XH : hs xh D.
Hypothesis PL : Permutation (elems I) lk.

(** ** images *)
Definition imap (I : list item) : list item := List.map (fun it => (fst it, List.map f (snd it))) I.
Definition gl (l : loc) : loc :=
  match l with NX y => NX (f y) | PR (PN y) => PR (PN (f y)) | PR (PB _ i) => PR (PB a' i) end.
Definition fb (b : bptr) : bptr := match b with PN y => PN (f y) | PB _ i => PB a' i end.
Definition img (c : cell) : cell := (gl (fst c), fb (snd c)).
Lemma f_null : f 0 = 0.
Proof. exact (c_null C). Qed.
Lemma first_map g : first_of (List.map f g) = f (first_of g).
Proof. destruct g; cbn; auto. symmetry. apply f_null. Qed.
Lemma last_map {A B} (k : A -> B) (l : list A) d : last (List.map k l) (k d) = k (last l d).
Proof. induction l as [|y [|z l] IH]; cbn in *; auto. Qed.
Lemma lasto_map g : last_of (List.map f g) = f (last_of g).
Proof. unfold last_of. rewrite <- f_null at 1. apply last_map. Qed.
Lemma removelast_map {A B} (k : A -> B) (l : list A) : removelast (List.map k l) = List.map k (removelast l).
Proof. induction l as [|y [|z l] IH]; cbn in *; auto. now rewrite IH. Qed.
Lemma dl_map l : forall p, dl (f p) (List.map f l) = List.map img (dl p l).
Proof. induction l as [|q l IH]; intros p; cbn; auto. now rewrite IH. Qed.
Lemma inner_map g : inner (List.map f g) = List.map img (inner g).
Proof.
  unfold inner. destruct g as [|u [|s [|z g]]]; try reflexivity. cbn [List.map tl].
  change (f u :: f s :: f z :: List.map f g) with (List.map f (u :: s :: z :: g)).
  change (f z :: List.map f g) with (List.map f (z :: g)). rewrite removelast_map.
  assert (E1 : last (List.map f (u :: s :: z :: g)) 0 = f (last (u :: s :: z :: g) 0)) by (rewrite <- f_null at 1; apply last_map).
  rewrite E1, last_map, dl_map, map_app. reflexivity.
Qed.
Lemma joint_map pi p i q : joint a' pi (f p) i (f q) = List.map img (joint a pi p i q).
Proof. unfold joint. destruct (same_bucket pi i); reflexivity. Qed.
Lemma links_map J : forall pi p, links a' pi (f p) (imap J) = List.map img (links a pi p J).
Proof.
  induction J as [|(i, g) J IH]; intros pi p; cbn [imap List.map links fst snd]; auto.
  rewrite !map_app, first_map, lasto_map, joint_map, inner_map. fold (imap J). now rewrite IH.
Qed.
Lemma imap_fst J : List.map fst (imap J) = List.map fst J.
Proof. unfold imap. rewrite map_map. reflexivity. Qed.
Lemma imap_elems J : elems (imap J) = List.map f (elems J).
Proof. induction J as [|(i, g) J IH]; cbn; auto. rewrite map_app. f_equal. apply IH. Qed.
Lemma empties_map : empties a' n (imap I) = List.map img (empties a n I).
Proof. unfold empties. rewrite imap_fst, map_map. apply map_ext. intros i. cbn. unfold img. cbn. now rewrite (c_null C). Qed.
Lemma layout_map : layout a' n hc (imap I) = List.map img D.
Proof.
  unfold layout. rewrite map_app, empties_map. f_equal. rewrite <- (c_hd C). rewrite <- links_map. f_equal.
  unfold imap. rewrite map_app. reflexivity.
Qed.
Lemma imap_wfi : wfi n (imap I).
Proof.
  unfold imap, wfi. rewrite Forall_map. assert (W' := W). unfold wfi in W'. rewrite Forall_forall in W' |- *. intros it Hi. cbn [fst snd].
  destruct (W' it Hi) as (A & B & N). splits; auto.
  - unfold shaped. now rewrite map_length.
  - intros J. apply in_map_iff in J as (y & E & Iy). assert (Y : In y lk).
    { eapply Permutation_in; [exact PL|]. apply in_flat_map. exists it. auto. }
    assert (y = null). { eapply copying_inj; [exact C|do 2 right; exact Y|now left|now rewrite (c_null C)]. }
    subst. auto.
Qed.
Lemma imap_single : single I -> single (imap I).
Proof. unfold single, imap. rewrite Forall_map. apply Forall_impl. intros it. cbn. now rewrite map_length. Qed.

(** ** where things are *)
Lemma el_lk y : In y (ho :: elems I) -> In y (ho :: lk).
Proof. intros [<-|J]; [now left|right; eapply Permutation_in; eauto]. Qed.
Lemma inj y z : In y (ho :: elems I) -> In z (ho :: elems I) -> f y = f z -> y = z.
Proof. intros Iy Iz E. apply el_lk in Iy, Iz. eapply copying_inj; [exact C|now right|now right|exact E]. Qed.
Lemma gl_inj l l' : In l (List.map fst D) -> In l' (List.map fst D) -> gl l = gl l' -> l = l'.
Proof.
  intros J J'. apply in_map_iff in J as (c & <- & Hc). apply in_map_iff in J' as (c' & <- & Hc').
  apply loc_of_layout in Hc; auto. apply loc_of_layout in Hc'; auto.
  destruct Hc as [(i & ->)|(y & Hy & [-> | ->])], Hc' as [(i' & ->)|(y' & Hy' & [-> | ->])]; cbn; intros E; try discriminate.
  - injection E as ->. reflexivity.
  - injection E as E. f_equal. now apply inj.
  - injection E as E. do 2 f_equal. now apply inj.
Qed.
Lemma ndD : NoDup (ho :: elems I).
Proof. assert (N := @layout_nodup xh a n ho I [] W). rewrite app_nil_r in N. exact (N XH). Qed.

(** ** fields which are right *)
Definition h_all (g : heap) : Prop := forall l, In l (List.map fst D) -> g (gl l) <> None.
Definition ok (g : heap) (l : loc) : Prop := forall v, In (l, v) D -> g (gl l) = Some (fb v).
Definition keep (g g' : heap) : Prop := h_all g' /\ forall l, In l (List.map fst D) -> ok g l -> ok g' l.
Lemma keep_trans g g' g'' : keep g g' -> keep g' g'' -> keep g g''.
Proof. intros (A & B) (A' & B'). split; auto. Qed.
Lemma ok_nothing g l : ~ In l (List.map fst D) -> ok g l.
Proof. intros N v J. exfalso. apply N. apply (in_map fst) in J. exact J. Qed.
Lemma keep_ok g g' l : keep g g' -> ok g l -> ok g' l.
Proof. intros (_ & K) O. destruct (in_dec loc_dec l (List.map fst D)) as [J|J]; [auto|now apply ok_nothing]. Qed.

Lemma wr_ok l v g : h_all g -> In (l, v) D -> wp (wr (gl l) (fb v)) (fun _ g' => keep g g' /\ ok g' l) (fun _ => False) g.
Proof.
  intros Ha J. assert (Jl : In l (List.map fst D)) by (apply (in_map fst) in J; exact J).
  unfold wp, wr. destruct (g (gl l)) as [w|] eqn:E; [|exfalso; now apply (Ha l)]. unfold keep, h_all, ok, hset. splits.
  - intros l' J'. destruct (loc_eqb_spec (gl l') (gl l)); [discriminate|]. now apply Ha.
  - intros l' J' O v' Hv'. destruct (loc_eqb_spec (gl l') (gl l)) as [El|]; [|auto]. apply gl_inj in El; auto. subst l'.
    now rewrite (@hs_fun _ _ _ _ _ XH J Hv').
  - intros v' Hv'. rewrite loc_eqb_refl. now rewrite (@hs_fun _ _ _ _ _ XH J Hv').
Qed.
Lemma rd_pri b y : In (PR b, PN y) D -> pri b xh = Ret y xh.
Proof. intros J. unfold pri, bind, rd. now rewrite (hs_in _ _ XH J). Qed.
Lemma rd_nxt y b : In (NX y, b) D -> nxt y xh = Ret b xh.
Proof. intros J. unfold nxt, rd. now rewrite (hs_in _ _ XH J). Qed.

(** ** consecutive elements *)
Definition apart (p q : node) : Prop := exists i, In (NX p, PB a i) D /\ In (PR (PN q), PN p) D /\ In (PR (PB a i), PN q) D.
Definition step (p q : node) : Prop :=
  In p (ho :: elems I) /\ In q (ho :: elems I) /\ n_after p xh = Ret q xh /\
  (apart p q \/
   exists w r, In (NX p, PN w) D /\ In (PR (PN q), PN r) D /\ In w (ho :: elems I) /\ In r (ho :: elems I) /\ n_first_of_bucket q xh = Ret false xh).
Definition ustep (p q : node) : Prop :=
  In p (ho :: elems I) /\ In q (ho :: elems I) /\ (apart p q \/ In (NX p, PN q) D /\ In (PR (PN q), PN p) D).

Lemma joint_cases pi p i q : incl (joint a pi p i q) D -> apart p q \/ In (NX p, PN q) D /\ In (PR (PN q), PN p) D.
Proof.
  unfold joint, apart. destruct (same_bucket pi i); intros H; [right|left; exists i]; splits; apply H; cbn; auto.
Qed.
Lemma joint_ustep pi p i q : In p (ho :: elems I) -> In q (ho :: elems I) -> incl (joint a pi p i q) D -> ustep p q.
Proof. intros Ip Iq H. split; auto. split; auto. eapply joint_cases; eauto. Qed.
Lemma joint_step pi p i q : In p (ho :: elems I) -> In q (ho :: elems I) -> p <> q -> incl (joint a pi p i q) D -> step p q.
Proof.
  intros Ip Iq Ne H. apply joint_cases in H. split; auto. split; auto.
  destruct H as [(k & A1 & A2 & A3)|(A1 & A2)].
  - split; [|left; exists k; auto]. unfold n_after, n_after_or, bind.
    rewrite (rd_nxt _ _ A1), (rd_pri _ _ A3). rewrite (proj2 (Nat.eqb_neq q p)) by auto.
    rewrite (rd_nxt _ _ A1), (rd_pri _ _ A3), (rd_pri _ _ A2), Nat.eqb_refl. now rewrite (rd_nxt _ _ A1), (rd_pri _ _ A3).
  - split.
    + unfold n_after, n_after_or, bind. rewrite (rd_nxt _ _ A1), (rd_pri _ _ A2), Nat.eqb_refl. now rewrite (rd_nxt _ _ A1).
    + right. exists q, p. splits; auto. unfold n_first_of_bucket, bind. rewrite (rd_pri _ _ A2), (rd_nxt _ _ A1), (rd_pri _ _ A2).
      now rewrite (proj2 (Nat.eqb_neq p q)) by auto.
Qed.

Section At.
Variables (I1 I2 : list item) (i : nat) (g : list node).
Hypothesis EI : I = I1 ++ (i, g) :: I2.
Lemma permD : Permutation D (joint a (idx None I1) (lastn ho I1) i (first_of g) ++ inner g ++
   joint a (Some i) (last_of g) (nidx n I2) (nnode ho I2) ++
   (links a None ho I1 ++ rest a n ho I2 ++ empties a n (I1 ++ (i, []) :: I2) ++ [])).
Proof. rewrite EI. rewrite <- (app_nil_r (layout _ _ _ _)). exact (lay_perm0 a n ho I1 I2 i [] g). Qed.
Lemma inD_left : incl (joint a (idx None I1) (lastn ho I1) i (first_of g)) D.
Proof. intros c Hc. eapply Permutation_in; [symmetry; apply permD|]. rewrite in_app_iff. auto. Qed.
Lemma inD_mid : incl (inner g) D.
Proof. intros c Hc. eapply Permutation_in; [symmetry; apply permD|]. rewrite !in_app_iff. auto. Qed.
Lemma inD_right : incl (joint a (Some i) (last_of g) (nidx n I2) (nnode ho I2)) D.
Proof. intros c Hc. eapply Permutation_in; [symmetry; apply permD|]. rewrite !in_app_iff. auto. Qed.
Lemma g_in y : In y g -> In y (ho :: elems I).
Proof. intros J. right. rewrite EI, elems_app. apply in_or_app. right. cbn. apply in_or_app. auto. Qed.
Lemma g_shaped : shaped g /\ wfi n I1 /\ wfi n I2.
Proof. assert (W' := W). rewrite EI in W'. apply wfi_app in W' as (A & B). apply wfi_cons in B as ((_ & B & _) & B'). auto. Qed.
Lemma lastn_el : In (lastn ho I1) (ho :: elems I1).
Proof. apply lastn_in. eapply wfi_ne. apply g_shaped. Qed.
Lemma nnode_el : In (nnode ho I2) (ho :: elems I2).
Proof. eapply nnode_in. apply g_shaped. Qed.
Lemma out_g y : In y g -> ~ In y (ho :: elems I1) /\ ~ In y (ho :: elems I2).
Proof.
  intros J. assert (N := ndD). rewrite EI, elems_app in N. cbn [elems flat_map snd] in N. fold (elems I2) in N.
  inversion N as [|? ? N1 N2]; subst. apply NoDup_app_iff in N2 as (N3 & N4 & N5). apply NoDup_app_iff in N4 as (N6 & N7 & N8).
  rewrite !in_app_iff in N1. split; intros [E|K].
  - subst y. apply N1. auto.
  - apply (N5 y K). apply in_or_app. auto.
  - subst y. apply N1. auto.
  - apply (N8 y J K).
Qed.
Lemma nd_g : NoDup g.
Proof.
  assert (N := ndD). rewrite EI, elems_app in N. cbn [elems flat_map snd] in N. inversion N as [|? ? N1 N2]; subst.
  apply NoDup_app_iff in N2 as (N3 & N4 & N5). now apply NoDup_app_iff in N4.
Qed.
Lemma after_in g1 p q g2 : g = g1 ++ p :: q :: g2 -> n_after p xh = Ret q xh.
Proof.
  intros E. apply Rd_eq. eapply (@n_after_lay_in a n ho xh [] I1 I2 i _ g1 p q g2); rewrite <- E, <- EI; auto. now rewrite app_nil_r.
Qed.
Lemma grp_steps u s mm l : g = u :: s :: mm ++ [l] -> adj step (u :: s :: mm ++ [l]).
Proof.
  intros Eg. assert (Nd := nd_g). assert (Mid := inD_mid). rewrite Eg, inner_grp in Mid.
  assert (Rt := inD_right). rewrite Eg, grp_last in Rt.
  assert (Lf := inD_left). rewrite Eg, grp_first in Lf.
  assert (Gi := g_in). assert (Ln := lastn_el). assert (Nn := nnode_el). assert (Out := out_g).
  assert (B0 := @after_in). rewrite Eg in Gi, Out, B0, Nd.
  assert (Us : u <> s /\ u <> l /\ s <> l).
  { inversion Nd as [|? ? N1 N2]; subst. inversion N2 as [|? ? N3 N4]; subst. splits; intros ->.
    - apply N1. now left.
    - apply N1. right. apply in_or_app. right. now left.
    - apply N3. apply in_or_app. right. now left. }
  destruct Us as (Us & Ul & Sl).
  cbn [adj]. split.
  - (* from the first to the second *)
    split; [apply Gi; now left|]. split; [apply Gi; right; now left|]. split; [now apply (B0 [] u s (mm ++ [l]))|].
    right. exists s, l. splits.
    + apply Mid. now left.
    + apply Mid. right. now left.
    + apply Gi. right. now left.
    + apply Gi. do 2 right. apply in_or_app. right. now left.
    + unfold n_first_of_bucket, bind. rewrite (@rd_pri (PN s) l) by (apply Mid; right; now left).
      destruct (joint_cases _ _ _ _ Rt) as [(k & A1 & A2 & A3)|(A1 & A2)].
      * rewrite (rd_nxt _ _ A1), (rd_pri _ _ A3). rewrite (proj2 (Nat.eqb_neq _ _)); [reflexivity|]. intros E.
        apply (proj2 (Out s (or_intror (or_introl eq_refl)))). now rewrite <- E.
      * rewrite (rd_nxt _ _ A1), (rd_pri _ _ A2). now rewrite (proj2 (Nat.eqb_neq l s)) by auto.
  - (* on to the last but one, and to the last *)
    assert (Mm : forall mm' p, (forall c, In c (dl p mm') -> In c D) ->
       In (NX (last mm' p), PN u) D -> In (PR (PN l), PN (last mm' p)) D ->
       (exists g1, u :: s :: mm ++ [l] = u :: g1 ++ p :: mm' ++ [l]) -> adj step (p :: mm' ++ [l])).
    { clear Mid. induction mm' as [|q mm' IH]; intros p Dm E1 E2 (g1 & Eg1); cbn [app adj last] in *.
      - split; auto. split; [apply Gi; rewrite Eg1; right; apply in_or_app; right; now left|].
        split; [apply Gi; rewrite Eg1; right; apply in_or_app; right; right; now left|].
        split; [now apply (B0 (u :: g1) p l [])|]. right. exists u, p.
        assert (Ip : In p (ho :: elems I)) by (apply Gi; rewrite Eg1; right; apply in_or_app; right; now left).
        splits; auto; [apply Gi; now left|]. unfold n_first_of_bucket, bind. rewrite (rd_pri _ _ E2), (rd_nxt _ _ E1).
        assert (E3 : In (PR (PN u), PN (lastn ho I1)) D) by (apply Lf, in_joint_r). rewrite (rd_pri _ _ E3).
        rewrite (proj2 (Nat.eqb_neq _ _)); [reflexivity|]. intros E.
        assert (Il : In l (u :: s :: mm ++ [l])) by (do 2 right; apply in_or_app; right; now left).
        apply (proj1 (Out l Il)). now rewrite <- E.
      - assert (A1 : In (NX p, PN q) D) by (apply Dm; now left). assert (A2 : In (PR (PN q), PN p) D) by (apply Dm; right; now left).
        assert (Ip : In p (ho :: elems I)) by (apply Gi; rewrite Eg1; right; apply in_or_app; right; now left).
        assert (Iq : In q (ho :: elems I)) by (apply Gi; rewrite Eg1; right; apply in_or_app; right; right; now left).
        split.
        + split; auto. split; auto. split; [now apply (B0 (u :: g1) p q (mm' ++ [l]))|]. right. exists q, p. splits; auto.
          unfold n_first_of_bucket, bind. rewrite (rd_pri _ _ A2), (rd_nxt _ _ A1), (rd_pri _ _ A2). rewrite (proj2 (Nat.eqb_neq _ _)); [reflexivity|].
          intros ->. rewrite Eg1 in Nd. inversion Nd as [|? ? _ N2]; subst. apply NoDup_app_iff in N2 as (_ & N2 & _). inversion N2 as [|? ? N3 _]. apply N3. now left.
        + assert (El : last (q :: mm') p = last mm' q) by (destruct mm' as [|z mm']; [reflexivity|exact (last_dflt z mm' p q)]).
          change (match mm' with [] => q | _ :: _ => last mm' p end) with (last (q :: mm') p) in E1, E2. rewrite El in E1, E2.
          apply IH; auto; [intros c Hc; apply Dm; right; now right|]. exists (g1 ++ [p]). rewrite <- app_assoc. exact Eg1. }
    apply Mm.
    + intros c Hc. apply Mid. do 2 right. apply in_or_app. auto.
    + apply Mid. do 2 right. apply in_or_app. right. now left.
    + apply Mid. do 2 right. apply in_or_app. right. right. now left.
    + now exists [].
Qed.
Lemma g_steps : adj step g.
Proof.
  destruct (shaped_cases (proj1 g_shaped)) as [(y & E)|(u & s & mm & l & E)]; rewrite E; [cbn; auto|]. now apply grp_steps.
Qed.
End At.

Lemma end_in I1 : I = I1 -> incl (joint a (idx None I1) (lastn ho I1) n ho) D.
Proof. intros <- c Hc. rewrite layout_end. rewrite !in_app_iff. auto. Qed.
Lemma all_steps I2 : forall I1, I = I1 ++ I2 -> I <> [] -> adj step (lastn ho I1 :: elems I2 ++ [ho]).
Proof.
  assert (Nd := ndD). inversion Nd as [|? ? Nh _]; subst.
  induction I2 as [|(i, g) I2 IH]; intros I1 E Ne.
  - rewrite app_nil_r in E. cbn [elems flat_map app adj]. split; auto. subst I1.
    assert (L : In (lastn ho I) (elems I)).
    { destruct (lastn_in ho (wfi_ne W)) as [E|J]; auto. exfalso. destruct I as [|it J]; [easy|].
      rewrite <- (app_nil_l (it :: J)) in E. destruct (exists_last (l := it :: J)) as (J0 & (k, gg) & EJ); [easy|].
      cbn [app] in E. rewrite EJ in E, Nh, W. rewrite lastn_app in E. cbn in E. apply Nh. rewrite E. rewrite elems_app. apply in_or_app. right. cbn. rewrite app_nil_r.
      apply wfi_app in W as (_ & W2). apply wfi_cons in W2 as ((_ & S & _) & _). now apply lasto_in. }
    eapply joint_step; [right; exact L|now left| |apply (@end_in I eq_refl)]. intros X. now rewrite X in L.
  - cbn [elems flat_map snd]. rewrite <- app_assoc. fold (elems I2).
    assert (Sg := @g_shaped _ _ _ _ E). destruct Sg as (Sg & W1 & W2).
    assert (Gne := shaped_ne Sg).
    assert (St : adj step (lastn ho I1 :: g)).
    { destruct g as [|y g'] eqn:Eg; [easy|]. split; [|exact (@g_steps _ _ _ _ E)].
      assert (Ly := @lastn_el _ _ _ _ E). assert (Oy := @out_g _ _ _ _ E y (or_introl eq_refl)).
      eapply joint_step; [| | |apply (@inD_left _ _ _ _ E)].
      + destruct Ly as [<-|J]; [now left|]. right. rewrite E, elems_app. apply in_or_app. auto.
      + apply (@g_in _ _ _ _ E). now left.
      + cbn. intros X. apply (proj1 Oy). now rewrite <- X. }
    destruct (exists_last Gne) as (g0 & l & Eg). assert (El : last_of g = l) by (unfold last_of; rewrite Eg; apply last_last).
    rewrite Eg in St |- *. rewrite <- app_assoc. cbn [app]. apply (adj_app step (lastn ho I1 :: g0) l). split; [exact St|].
    rewrite <- El. replace (last_of g) with (lastn ho (I1 ++ [(i, g)])); [|rewrite lastn_app; reflexivity].
    apply IH; auto. rewrite <- app_assoc. exact E.
Qed.
Lemma all_usteps I2 : single I -> forall I1, I = I1 ++ I2 -> adj ustep (lastn ho I1 :: elems I2 ++ [ho]).
Proof.
  intros Si. induction I2 as [|(i, g) I2 IH]; intros I1 E.
  - rewrite app_nil_r in E. cbn [elems flat_map app adj]. split; auto. subst I1.
    eapply joint_ustep; [apply lastn_in, (wfi_ne W)|now left|apply (@end_in I eq_refl)].
  - assert (G1 : length g = 1). { unfold single in Si. rewrite E, Forall_forall in Si. apply (Si (i, g)). apply in_or_app. right. now left. }
    destruct g as [|y [|]]; try discriminate. cbn [elems flat_map snd app]. fold (elems I2). cbn [adj]. split.
    + eapply joint_ustep; [| |apply (@inD_left _ _ _ _ E)].
      * destruct (@lastn_el _ _ _ _ E) as [<-|J]; [now left|]. right. rewrite E, elems_app. apply in_or_app. auto.
      * apply (@g_in _ _ _ _ E). now left.
    + replace y with (lastn ho (I1 ++ [(i, [y])])); [|rewrite lastn_app; reflexivity]. apply IH. rewrite <- app_assoc. exact E.
Qed.

(** ** the loops *)
Definition settled (g : heap) (p q : node) : Prop :=
  ok g (NX p) /\ ok g (PR (PN q)) /\ forall i, In (NX p, PB a i) D -> ok g (PR (PB a i)).
Lemma settled_keep g g' p q : keep g g' -> settled g p q -> settled g' p q.
Proof. intros K (A & B & E). split; [|split]; try (eapply keep_ok; eauto; fail). intros i J. eapply keep_ok; eauto. Qed.
Lemma nx_fun p b b' : In (NX p, b) D -> In (NX p, b') D -> b = b'.
Proof. intros J J'. exact (@hs_fun _ _ _ _ _ XH J J'). Qed.

Lemma hn_body p q g : step p q -> h_all g ->
  wp (hn_copy_body mfind x a' p (f p) q (f q)) (fun _ g' => keep g g' /\ settled g' p q) (fun _ => False) g.
Proof.
  intros (Ip & Iq & _ & St) Ha. unfold hn_copy_body. destruct St as [(i & A1 & A2 & A3)|(w & r & A1 & A2 & Iw & Ir & Fb)].
  - eapply wp_from.
    { unfold n_first_of_bucket, bind. rewrite (rd_pri _ _ A2), (rd_nxt _ _ A1), (rd_pri _ _ A3), Nat.eqb_refl. reflexivity. }
    eapply wp_from; [apply (rd_nxt _ _ A1)|]. cbn [bucket_of]. rewrite Nat.eqb_refl. eapply wp_bind_ret; [reflexivity|].
    apply wp_bind. eapply wp_conseq; [apply (@wr_ok _ _ g Ha A1)| |easy]. intros [] g1 (K1 & R1).
    apply wp_bind. eapply wp_conseq; [apply (@wr_ok _ _ g1 (proj1 K1) A3)| |easy]. intros [] g2 (K2 & R2).
    eapply wp_conseq; [apply (@wr_ok _ _ g2 (proj1 K2) A2)| |easy]. intros [] g3 (K3 & R3). assert (K13 := keep_trans K2 K3). split.
    + eapply keep_trans; eauto.
    + split; [eapply keep_ok; [exact K13|exact R1]|]. split; auto. intros i' J. assert (E := nx_fun _ _ _ A1 J). injection E as <-. eapply keep_ok; [exact K3|exact R2].
  - eapply wp_from; [exact Fb|]. eapply wp_from; [apply (rd_nxt _ _ A1)|]. apply wp_bind.
    eapply (@wp_conseq _ _ _ (fun _ g1 => keep g g1 /\ ok g1 (NX p)) _ (fun _ => False)); [| |easy].
    { destruct (bptr_eqb_spec (PN w) (PN q)) as [E|E].
      - injection E as ->. exact (@wr_ok _ _ g Ha A1).
      - eapply wp_from; [apply (rd_nxt _ _ A1)|]. eapply wp_from; [reflexivity|]. eapply wp_look; [exact C|apply el_lk, Iw|].
        exact (@wr_ok _ _ g Ha A1). }
    intros [] g1 (K1 & R1). eapply wp_from; [apply (rd_pri _ _ A2)|].
    eapply (@wp_conseq _ _ _ (fun _ g2 => keep g1 g2 /\ ok g2 (PR (PN q))) _ (fun _ => False)); [| |easy].
    { destruct (Nat.eqb_spec r p) as [->|E]; cbn [negb].
      - exact (@wr_ok _ _ g1 (proj1 K1) A2).
      - eapply wp_from; [apply (rd_pri _ _ A2)|]. eapply wp_look; [exact C|apply el_lk, Ir|]. exact (@wr_ok _ _ g1 (proj1 K1) A2). }
    intros [] g2 (K2 & R2). split; [eapply keep_trans; eauto|]. split; [eapply keep_ok; eauto|]. split; auto.
    intros i J. assert (E := nx_fun _ _ _ A1 J). discriminate.
Qed.
Lemma hu_body p q g : ustep p q -> h_all g ->
  wp (hu_copy_body x a' q (f q) p (f p)) (fun _ g' => keep g g' /\ settled g' p q) (fun _ => False) g.
Proof.
  intros (Ip & Iq & St) Ha. unfold hu_copy_body. apply wp_bind. destruct St as [(i & A1 & A2 & A3)|(A1 & A2)].
  - eapply wp_conseq; [apply (@wr_ok _ _ g Ha A2)| |easy]. intros [] g1 (K1 & R1). eapply wp_from.
    { unfold u_first_of_bucket, bind. rewrite (rd_pri _ _ A2), (rd_nxt _ _ A1). reflexivity. }
    cbn [bptr_eqb negb]. eapply wp_from; [apply (rd_nxt _ _ A1)|]. cbn [bucket_of]. rewrite Nat.eqb_refl. eapply wp_bind_ret; [reflexivity|].
    apply wp_bind. eapply wp_conseq; [apply (@wr_ok _ _ g1 (proj1 K1) A1)| |easy]. intros [] g2 (K2 & R2).
    eapply wp_conseq; [apply (@wr_ok _ _ g2 (proj1 K2) A3)| |easy]. intros [] g3 (K3 & R3). assert (K13 := keep_trans K2 K3). split.
    + eapply keep_trans; eauto.
    + split; [eapply keep_ok; [exact K3|exact R2]|]. split; [eapply keep_ok; [exact K13|exact R1]|]. intros i' J. assert (E := nx_fun _ _ _ A1 J). injection E as <-. auto.
  - eapply wp_conseq; [apply (@wr_ok _ _ g Ha A2)| |easy]. intros [] g1 (K1 & R1). eapply wp_from.
    { unfold u_first_of_bucket, bind. rewrite (rd_pri _ _ A2), (rd_nxt _ _ A1), bptr_eqb_refl. reflexivity. }
    cbn [negb]. eapply wp_conseq; [apply (@wr_ok _ _ g1 (proj1 K1) A1)| |easy]. intros [] g2 (K2 & R2). split; [eapply keep_trans; eauto|].
    split; auto. split; [eapply keep_ok; eauto|]. intros i J. assert (E := nx_fun _ _ _ A1 J). discriminate.
Qed.

Lemma hn_loop l : forall fuel p g, length l < fuel -> adj step (p :: l ++ [ho]) -> ~ In ho l -> h_all g ->
  wp (hn_copy_loop mfind ho x a' fuel p (f p))
    (fun _ g' => keep g g' /\ adj (settled g') (p :: l ++ [ho])) (fun _ => False) g.
Proof.
  induction l as [|q l IH]; intros fuel p g Lf A Nh Ha; (destruct fuel as [|fuel]; [cbn in Lf; lia|]); cbn [hn_copy_loop].
  - cbn [app adj] in A. destruct A as (St & _). destruct St as (Ip & Iq & Af & St') eqn:Es. clear Es.
    eapply wp_from; [exact Af|]. eapply wp_look; [exact C|apply el_lk, Iq|]. apply wp_bind.
    eapply wp_conseq; [apply hn_body; auto; unfold step; auto| |easy]. intros [] g1 (K1 & S1). rewrite Nat.eqb_refl. apply wp_ret. split; auto. cbn. auto.
  - cbn [app adj] in A. destruct A as (St & A). assert (St0 := St). destruct St as (Ip & Iq & Af & _).
    eapply wp_from; [exact Af|]. eapply wp_look; [exact C|apply el_lk, Iq|]. apply wp_bind.
    eapply wp_conseq; [apply hn_body; auto| |easy]. intros [] g1 (K1 & S1).
    destruct (Nat.eqb_spec q ho) as [->|Nq]; [exfalso; apply Nh; now left|].
    eapply wp_conseq; [apply IH; auto| |easy].
    + cbn in Lf. lia.
    + intros J. apply Nh. now right.
    + apply K1.
    + intros [] g2 (K2 & S2). split; [eapply keep_trans; eauto|]. cbn [app adj]. split; auto. eapply settled_keep; eauto.
Qed.
(** backwards *)
Lemma hu_loop l : forall fuel q g, length l < fuel -> adj ustep (ho :: l ++ [q]) -> ~ In ho l -> h_all g ->
  wp (hu_copy_loop mfind ho x a' fuel q (f q))
    (fun _ g' => keep g g' /\ adj (settled g') (ho :: l ++ [q])) (fun _ => False) g.
Proof.
  induction l as [|p l IH] using rev_ind; intros fuel q g Lf A Nh Ha; (destruct fuel as [|fuel]; [rewrite ?app_length in Lf; cbn in Lf; lia|]); cbn [hu_copy_loop].
  - cbn [app adj] in A. destruct A as (St & _). assert (St0 := St). destruct St as (Ip & Iq & St).
    assert (A2 : In (PR (PN q), PN ho) D) by (destruct St as [(i & _ & X & _)|(_ & X)]; exact X).
    eapply wp_from; [apply (rd_pri _ _ A2)|]. eapply wp_look; [exact C|apply el_lk, Ip|]. apply wp_bind.
    eapply wp_conseq; [apply hu_body; auto| |easy]. intros [] g1 (K1 & S1). rewrite Nat.eqb_refl. apply wp_ret. split; auto. cbn. auto.
  - rewrite <- app_assoc in A. cbn [app] in A. apply (adj_app ustep (ho :: l) p [q]) in A as (A & St & _). assert (St0 := St). destruct St as (Ip & Iq & St).
    assert (A2 : In (PR (PN q), PN p) D) by (destruct St as [(i & _ & X & _)|(_ & X)]; exact X).
    eapply wp_from; [apply (rd_pri _ _ A2)|]. eapply wp_look; [exact C|apply el_lk, Ip|]. apply wp_bind.
    eapply wp_conseq; [apply hu_body; auto| |easy]. intros [] g1 (K1 & S1).
    destruct (Nat.eqb_spec p ho) as [->|Np]; [exfalso; apply Nh; apply in_or_app; right; now left|].
    eapply wp_conseq; [apply IH; auto| |easy].
    + rewrite app_length in Lf. cbn in Lf. lia.
    + intros J. apply Nh. apply in_or_app. auto.
    + apply K1.
    + intros [] g2 (K2 & S2). split; [eapply keep_trans; eauto|]. rewrite <- app_assoc. cbn [app]. apply (adj_app (settled g2) (ho :: l) p [q]).
      split; auto. cbn. split; auto. eapply settled_keep; eauto.
Qed.

(** ** everything *)
Lemma adj_left {A} (R : A -> A -> Prop) l z y : adj R (l ++ [z]) -> In y l -> exists w, R y w.
Proof.
  intros H J. apply in_split in J as (l1 & l2 & ->). rewrite <- app_assoc in H. cbn [app] in H. apply adj_app in H as (_ & H).
  destruct l2; cbn in H; destruct H; eauto.
Qed.
Lemma adj_rt {A} (R : A -> A -> Prop) l z y : adj R (z :: l) -> In y l -> exists w, R w y.
Proof.
  revert z. induction l as [|v l IH]; intros z H J; [easy|]. destruct H as (H & H'). destruct J as [->|J]; eauto.
Qed.
Lemma dl_none l : forall p b i v, In (PR (PB b i), v) (dl p l) -> False.
Proof. induction l as [|q l IH]; intros p b i v; cbn; [easy|]. intros [X|[X|X]]; try discriminate. eauto. Qed.
Lemma bucket_le i v : In (PR (PB a i), v) D -> i <= n.
Proof.
  intros H. unfold layout in H. apply in_app_or in H as [H|H].
  - assert (Q : forall J pi p, In (PR (PB a i), v) (links a pi p J) -> In i (List.map fst J)).
    { clear. induction J as [|(j, gg) J IH]; intros pi p; cbn [links]; [easy|]. intros X. cbn. apply in_app_or in X as [X|X].
      - unfold joint in *. destruct (same_bucket pi j); cbn in X.
        + destruct X as [X|[X|[]]]; discriminate.
        + destruct X as [X|[X|[X|[]]]]; try discriminate. injection X as -> <-. auto.
      - apply in_app_or in X as [X|X]; [|right; eauto]. exfalso. destruct gg as [|u [|s [|z gg]]]; cbn in X; try easy. destruct X as [X|[X|X]]; try discriminate.
        apply in_app_or in X as [X|[X|[X|[]]]]; try discriminate. exact (dl_none _ _ _ _ _ X). }
    apply Q in H. rewrite map_app in H. apply in_app_or in H as [H|[<-|[]]]; [|cbn; lia].
    apply in_map_iff in H as (it & <- & H). assert (W' := W). unfold wfi in W'. rewrite Forall_forall in W'. specialize (W' it H). lia.
  - apply empties_shape in H as (k & Lk & E). injection E as ->. lia.
Qed.
Lemma covered g : h_all g -> (forall l, In l (List.map fst (empties a n I)) -> ok g l) -> adj (settled g) (ho :: elems I ++ [ho]) ->
  hs g (layout a' n hc (imap I)).
Proof.
  intros Ha He A.
  assert (Nx : forall p, In p (ho :: elems I) -> ok g (NX p) /\ forall i, In (NX p, PB a i) D -> ok g (PR (PB a i))).
  { intros p Ip. change (ho :: elems I ++ [ho]) with ((ho :: elems I) ++ [ho]) in A. destruct (adj_left _ _ _ _ A Ip) as (w & S1 & _ & S2). auto. }
  assert (Pr : forall q, In q (ho :: elems I) -> ok g (PR (PN q))).
  { intros q Iq. destruct (@adj_rt _ _ _ _ q A) as (w & _ & S1 & _); auto. apply in_or_app. destruct Iq as [<-|J]; [right; now left|auto]. }
  assert (All : forall c, In c D -> g (gl (fst c)) = Some (fb (snd c))).
  { intros (l, v) Hc. cbn [fst snd]. enough (O : ok g l) by now apply O. assert (L := loc_of_layout _ _ _ W Hc). cbn [fst] in L.
    destruct L as [(i & ->)|(y & Iy & [-> | ->])]; [|now apply Nx|now apply Pr].
    unfold layout in Hc. apply in_app_or in Hc as [Hc|Hc].
    - assert (Q : forall J pi p i v, In (PR (PB a i), v) (links a pi p J) -> exists p', In (NX p', PB a i) (links a pi p J)).
      { clear. induction J as [|(j, gg) J IH]; intros pi p i v; cbn [links]; [easy|]. intros X. apply in_app_or in X as [X|X].
        - unfold joint in *. destruct (same_bucket pi j); cbn in X.
          + destruct X as [X|[X|[]]]; discriminate.
          + destruct X as [X|[X|[X|[]]]]; try discriminate. injection X as -> <-. exists p. cbn. auto.
        - apply in_app_or in X as [X|X].
          + exfalso. destruct gg as [|u [|s [|z gg]]]; cbn in X; try easy. destruct X as [X|[X|X]]; try discriminate.
            apply in_app_or in X as [X|[X|[X|[]]]]; try discriminate. exact (dl_none _ _ _ _ _ X).
          + destruct (IH _ _ _ _ X) as (p' & X'). exists p'. rewrite !in_app_iff. auto. }
      destruct (Q _ _ _ _ _ Hc) as (p & Hp). assert (Hp' : In (NX p, PB a i) D) by (apply in_or_app; auto).
      apply (Nx p); auto. assert (L := loc_of_layout _ _ _ W Hp'). destruct L as [(k & L)|(y & Iy & [L|L])]; cbn in L; try discriminate.
      injection L as ->. exact Iy.
    - apply He. apply (in_map fst) in Hc. exact Hc. }
  rewrite layout_map. split.
  - rewrite map_map. cbn [img fst]. rewrite <- (map_map fst gl). assert (N := proj1 XH). revert N. assert (G := gl_inj).
    revert G. generalize (List.map fst D) as L. clear. induction L as [|l L IH]; cbn; intros G N; [constructor|]. inversion N as [|? ? N1 N2]; subst. constructor.
    + intros J. apply in_map_iff in J as (l' & E & J). apply N1. rewrite <- (G l' l); auto.
    + apply IH; auto.
  - rewrite Forall_map. apply Forall_forall. intros c Hc. cbn [img fst snd]. now apply All.
Qed.

Lemma h_copy_ok uniq : (uniq = true -> single I) ->
  wp (h_copy mfind m ho hc uniq jh x a' (length lk)) (fun _ g' => hs g' (layout a' n hc (imap I))) (fun _ => False) (new_array a' n hc (fun _ => None)).
Proof.
  intros Su. unfold h_copy. apply wp_bind.
  assert (N0 : hs (new_array a' n hc (fun _ => None)) (layout a' n hc [] ++ [])).
  { apply new_array_lay; [split; constructor|easy]. }
  rewrite app_nil_r in N0. remember (new_array a' n hc (fun _ => None)) as g0 eqn:Eg0. clear Eg0.
  eapply wp_conseq.
  - apply (@for_pairs_in _ _ (fun done g' => (forall l, (forall e, In e done -> ~ of_node (snd e) l) -> g' l = g0 l) /\
       forall e, In e done -> g' (NX (snd e)) <> None /\ g' (PR (PN (snd e))) <> None) (fun _ => False) m); [|split; easy].
    intros done e g' Ie (A & B). unfold wp, put_node, hset. split.
    + intros l Hl. destruct (loc_eqb_spec l (NX (snd e))) as [->|N1]; [exfalso; apply (Hl e); [now left|now left]|].
      destruct (loc_eqb_spec l (PR (PN (snd e)))) as [->|N2]; [exfalso; apply (Hl e); [now left|now right]|]. apply A. intros e' J. apply Hl. now right.
    + intros e' J. cbn [loc_eqb bptr_eqb]. destruct (Nat.eqb_spec (snd e') (snd e)) as [E|N].
      * split; discriminate.
      * apply B. destruct J as [->|J]; [easy|exact J].
  - intros [] g1 (A & B).
    assert (Cp : forall y, In y lk -> g1 (NX (f y)) <> None /\ g1 (PR (PN (f y))) <> None).
    { intros y Iy. apply (B (y, f y)). rewrite <- in_rev. eapply cp_map_in; eauto. }
    assert (Old : forall l, ~ (exists y, In y lk /\ of_node (f y) l) -> g1 l = g0 l).
    { intros l N. apply A. intros e J X. rewrite <- in_rev in J. destruct (cp_in_map C _ J) as (y & -> & Iy). apply N. eauto. }
    assert (Hn : g1 (NX hc) = g0 (NX hc) /\ g1 (PR (PN hc)) = g0 (PR (PN hc))).
    { split; apply Old; intros (y & Iy & [E|E]); try discriminate; injection E as E; symmetry in E; exact (cp_hd C _ Iy E). }
    assert (Hb : forall i, g1 (PR (PB a' i)) = g0 (PR (PB a' i))).
    { intros i. apply Old. intros (y & _ & [E|E]); discriminate. }
    assert (Hg : forall l v, In (l, v) (layout a' n hc []) -> g0 l = Some v) by (intros l v J; exact (hs_in _ _ N0 J)).
    rewrite layout_nil in Hg.
    assert (Ha : h_all g1).
    { intros l J. apply in_map_iff in J as (c & <- & Hc). destruct (loc_of_layout _ _ _ W Hc) as [(i & E)|(y & Iy & E)].
      - rewrite E. cbn [gl]. rewrite Hb. assert (Li : i <= n).
        { destruct c as (l, v). cbn [fst] in E. subst l. eapply bucket_le; exact Hc. }
        destruct (Nat.eq_dec i n) as [->|Ni].
        + rewrite (Hg _ (PN hc)); [discriminate|]. cbn. auto.
        + rewrite (Hg _ (PN null)); [discriminate|]. apply in_or_app. right. apply empties_in. cbn. split; [lia|tauto].
      - assert (Y : g1 (NX (f y)) <> None /\ g1 (PR (PN (f y))) <> None).
        { destruct Iy as [<-|Iy]; [|apply Cp; eapply Permutation_in; eauto]. rewrite (c_hd C). destruct Hn as (-> & ->). split.
          - rewrite (Hg _ (PB a' n)); [discriminate|]. cbn. auto.
          - rewrite (Hg _ (PN hc)); [discriminate|]. cbn. auto. }
        destruct E as [-> | ->]; apply Y. }
    assert (He : forall l, In l (List.map fst (empties a n I)) -> ok g1 l).
    { intros l J v Hv. apply in_map_iff in J as (c & <- & Hc). destruct (empties_shape _ _ _ _ Hc) as (i & Li & ->). cbn [fst gl] in *.
      assert (Hc' : In (PR (PB a i), PN null) D) by (apply in_or_app; auto). rewrite (@hs_fun _ _ _ _ _ XH Hv Hc'). cbn [fb]. rewrite (c_null C), Hb.
      apply Hg. apply in_or_app. right. apply empties_in. cbn. auto. }
    destruct (length lk =? 0) eqn:E0; cbn [negb].
    + apply Nat.eqb_eq in E0. apply wp_ret. assert (EI : I = []).
      { rewrite <- (Permutation_length PL) in E0. destruct I as [|(i, g) J]; auto. exfalso. apply wfi_cons in W as ((_ & S & _) & _). cbn in E0. rewrite app_length in E0.
        destruct S as [S|S]; lia. }
      rewrite EI. cbn [imap List.map]. eapply hs_ext; [exact N0|]. intros c Hc. apply loc_of_layout in Hc; [|constructor].
      destruct Hc as [(i & ->)|(y & [<-|[]] & [-> | ->])]; auto; apply Hn.
    + apply Nat.eqb_neq in E0.
      assert (Ie : I <> []). { intros E. apply E0. rewrite <- (Permutation_length PL), E. reflexivity. }
      assert (Nh : ~ In ho (elems I)) by (assert (N := ndD); now inversion N).
      rewrite <- (c_hd C). destruct uniq.
      * eapply wp_conseq; [apply (@hu_loop (elems I)); auto| |easy].
        -- rewrite (Permutation_length PL). lia.
        -- apply (@all_usteps I (Su eq_refl) [] eq_refl).
        -- intros [] g2 (K & S2). rewrite (c_hd C). apply covered; auto; [apply K|]. intros l Hl. eapply keep_ok; eauto.
      * eapply wp_conseq; [apply (@hn_loop (elems I)); auto| |easy].
        -- rewrite (Permutation_length PL). lia.
        -- apply (@all_steps I [] eq_refl Ie).
        -- intros [] g2 (K & S2). rewrite (c_hd C). apply covered; auto; [apply K|]. intros l Hl. eapply keep_ok; eauto.
  - easy.
Qed.
End Hash.
