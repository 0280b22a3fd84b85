(** The node algorithms of hashed indices on whole lists of segments. *)
From Verif Require Import Prelude Layer LayerBase HashModel HashHeap HashAlg HashLink.
Set Implicit Arguments.

Definition elems (I : list item) : list node := flat_map snd I.
Lemma elems_app I J : elems (I ++ J) = elems I ++ elems J.
Proof. apply flat_map_app. Qed.
(** segments of one, or of at least three *)
Definition shaped (g : list node) : Prop := length g = 1 \/ 3 <= length g.
Definition wfi (n : nat) (I : list item) : Prop :=
  Forall (fun it => fst it < n /\ shaped (snd it) /\ ~ In null (snd it)) I.
Lemma wfi_app n I J : wfi n (I ++ J) <-> wfi n I /\ wfi n J.
Proof. apply Forall_app. Qed.
Lemma wfi_cons n i g J : wfi n ((i, g) :: J) <-> (i < n /\ shaped g /\ ~ In null g) /\ wfi n J.
Proof. split; [intros H; inversion H; auto|intros (A & B); now constructor]. Qed.
Lemma wfi_null n I : wfi n I -> ~ In null (elems I).
Proof.
  intros W J. apply in_flat_map in J as (it & J & K). unfold wfi in W. rewrite Forall_forall in W.
  destruct (W it J) as (_ & _ & N). auto.
Qed.
Lemma shaped_cases g : shaped g -> (exists x, g = [x]) \/ (exists f s m l, g = f :: s :: m ++ [l]).
Proof.
  intros [H|H].
  - destruct g as [|x [|y g]]; cbn in H; try lia. left. eauto.
  - right. destruct g as [|f [|s g]]; cbn in H; try lia. exists f, s.
    destruct (exists_last (l := g)) as (m & l & ->); [intros ->; cbn in H; lia|]. eauto.
Qed.
Lemma grp_first f s m l : first_of (f :: s :: m ++ [l]) = f.
Proof. reflexivity. Qed.
Lemma grp_last f s m l : last_of (f :: s :: m ++ [l]) = l.
Proof. unfold last_of. rewrite !app_comm_cons. apply last_last. Qed.

(** ** The owners of fields next() *)
Definition own (C : list cell) : list node :=
  flat_map (fun c : cell => match fst c with NX x => [x] | PR _ => [] end) C.
Lemma own_app C D : own (C ++ D) = own C ++ own D.
Proof. apply flat_map_app. Qed.
Lemma own_in C x : In x (own C) <-> In (NX x) (map fst C).
Proof.
  unfold own. rewrite in_flat_map, in_map_iff. split.
  - intros ((l, v) & J & K). cbn in K. destruct l as [b|y]; cbn in K; [easy|]. destruct K as [->|[]]. exists (NX x, v). auto.
  - intros ((l, v) & E & J). cbn in E. subst l. exists (NX x, v). cbn. auto.
Qed.
Lemma own_nd C : NoDup (map fst C) -> NoDup (own C).
Proof.
  induction C as [|(l, v) C IH]; cbn [own flat_map map fst]; intros N; [constructor|]. inversion N as [|? ? N1 N2]; subst.
  destruct l as [b|x]; cbn [app]; [now apply IH|]. constructor; [|now apply IH]. now rewrite own_in.
Qed.
Lemma own_perm C D : Permutation C D -> Permutation (own C) (own D).
Proof. intros P. unfold own. now apply Permutation_flat_map. Qed.
Lemma own_dl p m : own (dl p m) ++ [last m p] = p :: m.
Proof.
  revert p. induction m as [|q m IH]; intros p; [reflexivity|]. cbn [dl]. rewrite last_cons. cbn. f_equal. apply IH.
Qed.
Lemma own_inner g : shaped g -> Permutation (own (inner g) ++ [last_of g]) g.
Proof.
  intros S. destruct (shaped_cases S) as [(x & ->)|(f & s & m & l & ->)]; [reflexivity|].
  rewrite inner_grp, grp_last. cbn [own flat_map fst app]. fold (own (dl s m ++ [(NX (last m s), PN f); (PR (PN l), PN (last m s))])).
  rewrite own_app. cbn [own flat_map fst app]. rewrite own_dl. reflexivity.
Qed.
Lemma own_joint a pi p i q : own (joint a pi p i q) = [p].
Proof. unfold joint. now destruct (same_bucket pi i). Qed.
Lemma lastn_cons p i g I : lastn p ((i, g) :: I) = lastn (last_of g) I.
Proof. destruct I; reflexivity. Qed.
Lemma idx_cons pi i g I : idx pi ((i, g) :: I) = idx (Some i) I.
Proof. destruct I; reflexivity. Qed.
Lemma own_links a pi p I : Forall (fun it => shaped (snd it)) I ->
  Permutation (own (links a pi p I) ++ [lastn p I]) (p :: elems I).
Proof.
  revert pi p. induction I as [|(i, g) I IH]; intros pi p W; [reflexivity|]. inversion W as [|? ? W1 W2]; subst. cbn in W1.
  cbn [links elems flat_map snd]. rewrite !own_app, own_joint, lastn_cons. cbn [app]. constructor.
  etransitivity; [|apply Permutation_app_tail; apply (own_inner W1)].
  rewrite <- !app_assoc. apply Permutation_app_head. apply (IH (Some i) (last_of g) W2).
Qed.
Lemma wfi_shaped n I : wfi n I -> Forall (fun it => shaped (snd it)) I.
Proof. apply Forall_impl. tauto. Qed.
Lemma own_empties a n I : own (empties a n I) = [].
Proof. unfold own, empties. induction (filter _ _) as [|i l IH]; [reflexivity|]. exact IH. Qed.
Lemma own_layout a n hd I : wfi n I -> Permutation (own (layout a n hd I)) (hd :: elems I).
Proof.
  intros W. unfold layout. rewrite own_app, own_empties, app_nil_r.
  assert (P : Permutation (own (links a None hd (I ++ [(n, [hd])])) ++ [hd]) ((hd :: elems I) ++ [hd])).
  { etransitivity; [|etransitivity; [apply (@own_links a None hd (I ++ [(n, [hd])]))|]].
    - rewrite lastn_app. reflexivity.
    - apply Forall_app. split; [now apply wfi_shaped in W|]. constructor; [now left|constructor].
    - rewrite elems_app. reflexivity. }
  now apply Permutation_app_inv_r in P.
Qed.
(** all nodes are different *)
Lemma layout_nodup h a n hd I F : wfi n I -> hs h (layout a n hd I ++ F) -> NoDup (own F ++ hd :: elems I).
Proof.
  intros W (N & _). apply own_nd in N. eapply NoDup_perm; [|exact N].
  rewrite own_app, own_layout by auto. apply Permutation_app_comm.
Qed.

(** ** Buckets are contiguous *)
Definition contig (l : list nat) : Prop := forall l1 x l2 k, l = l1 ++ x :: l2 -> In k l1 -> In k l2 -> x = k.
Lemma map_split {A B} (f : A -> B) l l1 x l2 : map f l = l1 ++ x :: l2 ->
  exists k1 y k2, l = k1 ++ y :: k2 /\ l1 = map f k1 /\ x = f y /\ l2 = map f k2.
Proof.
  intros E. apply map_eq_app in E as (k1 & k & -> & <- & E2). apply map_eq_cons in E2 as (y & k2 & -> & <- & <-).
  eauto 8.
Qed.
Lemma links_contig h a p I F : hs h (links a None p I ++ F) -> contig (map fst I).
Proof.
  intros H l1 x l2 k E K1 K2. apply map_split in E as (I1 & (i, g) & I2 & -> & -> & -> & ->). cbn [fst].
  destruct (Nat.eq_dec i k) as [|Ne]; auto. exfalso.
  destruct (@links_bucket a None p I1 k K1) as (q1 & Q1); [easy|].
  rewrite links_app in H. cbn [links] in H.
  destruct (@links_bucket a (Some i) (last_of g) I2 k K2) as (q2 & Q2); [congruence|].
  apply hs_l in H. refine (@hs_sep _ _ _ _ (_, PN q2) H Q1 _ eq_refl). rewrite !in_app_iff. right. right. exact Q2.
Qed.
Lemma layout_contig h a n hd I F : hs h (layout a n hd I ++ F) -> contig (map fst I ++ [n]).
Proof.
  unfold layout. rewrite <- app_assoc. intros H. apply links_contig in H. now rewrite map_app in H.
Qed.
Lemma contig_app l m : contig (l ++ m) -> contig l.
Proof. intros C l1 x l2 k -> K1 K2. apply (C l1 x (l2 ++ m) k); auto; [now rewrite <- app_assoc|]. apply in_or_app; auto. Qed.
(** item [i] between others *)
Lemma contig_left I1 i l2 : contig (map fst I1 ++ i :: l2) -> In i (map fst I1) -> idx None I1 = Some i.
Proof.
  intros C J. revert C J. induction I1 as [|y I1 _] using rev_ind; [easy|]. intros C J.
  unfold idx. destruct (I1 ++ [y]) eqn:E; [destruct I1; discriminate|]. rewrite <- E in *. clear E p l.
  rewrite last_last. f_equal. rewrite map_app in *. cbn [map] in *. rewrite in_app_iff in J. destruct J as [J|[J|[]]]; auto.
  apply (C (map fst I1) (fst y) (i :: l2) i); auto; [|now left]. now rewrite <- app_assoc.
Qed.
Lemma contig_right l1 i j l3 : contig (l1 ++ i :: j :: l3) -> In i (j :: l3) -> j = i.
Proof.
  intros C [J|J]; auto. apply (C (l1 ++ [i]) j l3 i); auto; [now rewrite <- app_assoc|]. apply in_or_app. right. now left.
Qed.
Lemma contig_mid l1 i j l3 : contig (l1 ++ i :: j :: l3) -> In j l1 -> i = j.
Proof. intros C J. apply (C l1 i (j :: l3) j); auto. now left. Qed.

(** ** Layout around a place *)
Section Lay.
Variables (a n : nat) (hd : node).

Definition nidx (I : list item) : nat := match I with (j, _) :: _ => j | [] => n end.
Definition nnode (I : list item) : node := match I with (_, g) :: _ => first_of g | [] => hd end.
Definition rest (I : list item) : list cell :=
  match I with
  | (j, g) :: r => inner g ++ links a (Some j) (last_of g) (r ++ [(n, [hd])])
  | [] => []
  end.
Lemma links_next pi p I : links a pi p (I ++ [(n, [hd])]) = joint a pi p (nidx I) (nnode I) ++ rest I.
Proof. destruct I as [|(j, g) I]; [|reflexivity]. cbn. now rewrite !app_nil_r. Qed.
Lemma layout_gen I1 M I2 :
  layout a n hd (I1 ++ M ++ I2) =
  (links a None hd I1 ++ links a (idx None I1) (lastn hd I1) M ++
   joint a (idx (idx None I1) M) (lastn (lastn hd I1) M) (nidx I2) (nnode I2) ++ rest I2) ++ empties a n (I1 ++ M ++ I2).
Proof.
  unfold layout. f_equal. rewrite <- !app_assoc, links_app. f_equal. rewrite links_app. f_equal. apply links_next.
Qed.
Lemma layout_mid I1 i g I2 :
  layout a n hd (I1 ++ (i, g) :: I2) =
  (links a None hd I1 ++ (joint a (idx None I1) (lastn hd I1) i (first_of g) ++ inner g) ++
   joint a (Some i) (last_of g) (nidx I2) (nnode I2) ++ rest I2) ++ empties a n (I1 ++ (i, g) :: I2).
Proof.
  change ((i, g) :: I2) with ([(i, g)] ++ I2). rewrite layout_gen. rewrite links_one. now rewrite idx_cons, lastn_cons.
Qed.

(** removal of an item *)
Lemma emptied_empties I1 i g I2 :
  contig (map fst (I1 ++ (i, g) :: I2) ++ [n]) -> i < n ->
  Permutation (emptied a (idx None I1) i (nidx I2) ++ empties a n (I1 ++ (i, g) :: I2)) (empties a n (I1 ++ I2)).
Proof.
  intros C L. rewrite map_app, <- app_assoc in C. cbn [map fst app] in C. unfold emptied.
  destruct (same_bucket_spec (idx None I1) i) as [E|Ne].
  - apply idx_in in E. cbn [app]. erewrite empties_ext; [reflexivity|]. intros k Hk. rewrite !map_app, !in_app_iff. cbn [map fst In].
    split; [intros [?|[<-|?]]|]; tauto.
  - destruct (Nat.eqb_spec i (nidx I2)) as [E|Ne2].
    + destruct I2 as [|(j, g') I2]; cbn [nidx] in E; [lia|]. subst j. cbn [app].
      erewrite empties_ext; [reflexivity|]. intros k Hk. rewrite !map_app, !in_app_iff. cbn [map fst In]. tauto.
    + symmetry. apply empties_more; auto.
      * rewrite map_app, in_app_iff. intros [J|J].
        -- apply Ne. eapply contig_left; eauto.
        -- destruct I2 as [|(j, g') I2]; [easy|]. cbn [nidx] in Ne2. apply Ne2. symmetry.
           eapply contig_right; [exact C|]. cbn [map fst app In] in *. rewrite in_app_iff. tauto.
      * rewrite map_app, in_app_iff. right. now left.
      * intros k Hk. rewrite !map_app, !in_app_iff. cbn [map fst In]. split; [intros [?|[<-|?]]|]; tauto.
Qed.
Lemma contig_cond I1 i g I2 : contig (map fst (I1 ++ (i, g) :: I2) ++ [n]) -> idx None I1 = Some (nidx I2) -> i = nidx I2.
Proof.
  intros C E. apply idx_in in E. rewrite map_app, <- app_assoc in C. cbn [map fst app] in C.
  destruct I2 as [|(j, g') I2]; cbn [nidx map fst app] in *; eapply contig_mid; eauto.
Qed.

(** cells around an item *)
Section Around.
Variables (I1 I2 : list item) (i : nat) (F : list cell).
Let FR := links a None hd I1 ++ rest I2 ++ empties a n (I1 ++ (i, []) :: I2) ++ F.
Let pi := idx None I1.
Let p := lastn hd I1.
Let j := nidx I2.
Let q := nnode I2.
Lemma empties_item g g' : empties a n (I1 ++ (i, g) :: I2) = empties a n (I1 ++ (i, g') :: I2).
Proof. apply empties_ext. intros k _. rewrite !map_app, !in_app_iff. cbn. tauto. Qed.
Lemma lay_perm g X : Permutation (layout a n hd (I1 ++ (i, g) :: I2) ++ X ++ F)
  (joint a pi p i (first_of g) ++ inner g ++ joint a (Some i) (last_of g) j q ++ X ++ FR).
Proof. rewrite layout_mid. unfold FR, pi, p, j, q. rewrite (empties_item g []). permc. Qed.
Lemma lay_perm0 g : Permutation (layout a n hd (I1 ++ (i, g) :: I2) ++ F)
  (joint a pi p i (first_of g) ++ inner g ++ joint a (Some i) (last_of g) j q ++ FR).
Proof. apply (lay_perm g []). Qed.
Lemma lay_perm2 f l X : Permutation (layout a n hd (I1 ++ [(i, [f]); (i, [l])] ++ I2) ++ X ++ F)
  (joint a pi p i f ++ plain f l ++ joint a (Some i) l j q ++ X ++ FR).
Proof.
  rewrite layout_gen. unfold FR.
  rewrite (@empties_ext a n (I1 ++ [(i, [f]); (i, [l])] ++ I2) (I1 ++ (i, []) :: I2))
    by (intros k _; rewrite !map_app, !in_app_iff; cbn; tauto).
  rewrite !idx_cons, !lastn_cons. cbn [links first_of last_of List.hd last inner app idx lastn]. rewrite joint_same. unfold p, pi, j, q. cbn [app]. permc.
Qed.
Lemma lay_perm_rem g X : contig (map fst (I1 ++ (i, g) :: I2) ++ [n]) -> i < n ->
  Permutation (layout a n hd (I1 ++ I2) ++ X ++ F) (joint a pi p j q ++ emptied a pi i j ++ X ++ FR).
Proof.
  intros C L. assert (E := @emptied_empties I1 i g I2 C L). fold pi j in E. rewrite (empties_item g []) in E.
  change (I1 ++ I2) with (I1 ++ [] ++ I2). rewrite layout_gen. cbn [links idx lastn app]. fold pi p j q. unfold FR. permc.
Qed.
End Around.

Lemma nd_neq {A} (l1 l2 : list A) x y : NoDup (l1 ++ l2) -> In x l1 -> In y l2 -> x <> y.
Proof. intros N J K ->. apply NoDup_app_iff in N as (_ & _ & N). eapply N; eauto. Qed.
Lemma lastn_in p I : Forall (fun it => snd it <> []) I -> In (lastn p I) (p :: elems I).
Proof.
  revert p. induction I as [|(i, g) I IH]; intros p W; [now left|]. inversion W as [|? ? W1 W2]; subst. cbn in W1.
  rewrite lastn_cons. right. cbn. apply in_or_app. destruct (IH (last_of g) W2) as [<-|J]; auto. left. now apply last_in.
Qed.
Lemma shaped_ne g : shaped g -> g <> [].
Proof. intros [H|H] ->; cbn in H; lia. Qed.
Lemma wfi_ne I : wfi n I -> Forall (fun it => snd it <> []) I.
Proof. apply Forall_impl. intros it (_ & S & _). now apply shaped_ne. Qed.
Lemma first_in g : shaped g -> In (first_of g) g.
Proof. intros H. apply shaped_ne in H. destruct g; [easy|now left]. Qed.
Lemma lasto_in g : shaped g -> In (last_of g) g.
Proof. intros H. apply shaped_ne in H. now apply last_in. Qed.
Lemma nnode_in I : wfi n I -> In (nnode I) (hd :: elems I).
Proof.
  destruct I as [|(j, g) I]; [now left|]. intros W. apply wfi_cons in W as ((_ & W & _) & _). right. cbn.
  apply in_or_app. left. now apply first_in.
Qed.
Lemma in_joint_l pi p i q : exists v, In (NX p, v) (joint a pi p i q) /\ (v = PN q \/ v = PB a i).
Proof. unfold joint. destruct (same_bucket pi i); eexists; (split; [now left|auto]). Qed.
Lemma in_joint_r pi p i q : In (PR (PN q), PN p) (joint a pi p i q).
Proof. unfold joint. destruct (same_bucket pi i); cbn; auto. Qed.

Lemma idx_lt I : wfi n I -> idx None I <> Some n.
Proof.
  intros W E. apply idx_in in E. apply in_map_iff in E as (it & E & K).
  unfold wfi in W. rewrite Forall_forall in W. specialize (W it K). lia.
Qed.
Lemma lay_lctx I1 i g I2 F h y :
  wfi n (I1 ++ (i, g) :: I2) -> hs h (layout a n hd (I1 ++ (i, g) :: I2) ++ F) -> In y g -> y <> last_of g ->
  lctx (layout a n hd (I1 ++ (i, g) :: I2) ++ F) (lastn hd I1) y.
Proof.
  intros W H Y Yl. assert (N := layout_nodup _ _ _ W H). apply NoDup_app_iff in N as (_ & N & _).
  rewrite elems_app in N. cbn [elems flat_map snd] in N. fold (elems I2) in N.
  apply wfi_app in W as (W1 & W2). apply wfi_cons in W2 as ((Li & Sg & Ng) & W2).
  assert (In1 : forall c, In c (links a None hd I1) -> In c (layout a n hd (I1 ++ (i, g) :: I2) ++ F)).
  { intros c J. rewrite layout_mid. rewrite !in_app_iff. auto. }
  assert (N1 : NoDup ((hd :: elems I1) ++ g)) by (cbn [app] in *; rewrite app_comm_cons, app_assoc in N; now apply NoDup_app_iff in N).
  clear H. revert N W1 In1 N1. induction I1 as [|(k, g') I0 _] using rev_ind; intros N W1 In1 N1.
  - cbn [lastn app] in *. set (I := (i, g) :: I2). set (w := lastn hd I). exists w, (PB a n).
    assert (J : layout a n hd I = links a None hd I ++ joint a (idx None I) w n hd ++ empties a n I).
    { unfold layout. rewrite links_app, <- app_assoc. f_equal. cbn [links first_of List.hd inner app].
      now rewrite app_nil_r. }
    rewrite J. assert (E : idx None I <> Some n) by (apply idx_lt; unfold I; apply wfi_cons; repeat split; auto).
    rewrite joint_diff by auto. rewrite !in_app_iff. cbn [In]. repeat split; auto 8; [|congruence].
    unfold w, I. rewrite lastn_cons. destruct (lastn_in (last_of g) (wfi_ne W2)) as [E1|E1]; [congruence|].
    intros E2. rewrite E2 in E1. inversion N as [|? ? _ N2]; subst. eapply nd_neq; [exact N2|exact Y|exact E1|reflexivity].
  - rewrite lastn_app, lastn_cons. cbn [lastn].
    apply wfi_app in W1 as (W0 & W1). apply wfi_cons in W1 as ((Lk & Sk & _) & _).
    rewrite elems_app in N1. cbn [elems flat_map snd] in N1. rewrite app_nil_r in N1.
    assert (G : forall u, In u g' -> u <> y).
    { intros u U. eapply nd_neq; [exact N1| |exact Y]. right. apply in_or_app. auto. }
    assert (G0 : forall u, In u (hd :: elems I0) -> u <> y).
    { intros u U. eapply nd_neq; [exact N1| |exact Y]. cbn [In] in *. rewrite in_app_iff. tauto. }
    rewrite links_app in In1. rewrite links_one in In1.
    destruct (shaped_cases Sk) as [(x & ->)|(f & s & m & l & ->)].
    + cbn [last_of last]. exists (lastn hd I0).
      destruct (in_joint_l (idx None I0) (lastn hd I0) k x) as (v & V & Ve). exists v. repeat split.
      * apply In1. rewrite !in_app_iff. right. left. apply in_joint_r.
      * apply In1. rewrite !in_app_iff. right. left. exact V.
      * apply G0. apply lastn_in. now apply wfi_ne.
      * destruct Ve as [->| ->]; [|congruence]. intros E. injection E as E. apply (G x); [now left|auto].
    + rewrite grp_last. exists (last m s), (PN f). rewrite inner_grp in In1. repeat split.
      * apply In1. rewrite !in_app_iff. cbn [In]. rewrite in_app_iff. cbn [In]. auto 10.
      * apply In1. rewrite !in_app_iff. cbn [In]. rewrite in_app_iff. cbn [In]. auto 10.
      * apply G. right. destruct m as [|u m]; [now left|]. right. apply in_or_app. left. rewrite last_cons. 
        destruct m; [now left|]. right. apply last_in. easy.
      * intros E. injection E as E. apply (G f); [now left|auto].
Qed.
End Lay.
