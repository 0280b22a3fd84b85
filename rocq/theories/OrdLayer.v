(** An ordered index over a correct layer is a correct layer. *)
From Verif Require Import Prelude OrdModel OrdTree OrdHeap OrdRot OrdLink OrdExt3 OrdTrav Layer LayerBase OrdIdx OrdSpec OrdLook OrdPoint.
Set Implicit Arguments.
Local Notation size := OrdTree.size.

Lemma tat_drop hd hs h t x c F : tat hd hs h t ((x, c) :: F) -> tat hd hs h t F.
Proof.
  unfold tat. intros (N & Fa). split.
  - cbn in *. rewrite map_app in *. cbn in *. rewrite !app_comm_cons in *. now apply NoDup_remove_1 in N.
  - rewrite Forall_forall in *. intros p I. apply Fa. cbn in *. rewrite in_app_iff in *. cbn. tauto.
Qed.
Lemma tat_add hd hs h t x c F : tat hd hs h t F -> ~ In x (null :: hd :: inorder t ++ map fst F) ->
  tat hd hs (upd h x (Some c)) t ((x, c) :: F).
Proof.
  intros W N. assert (ND := tat_nodup W). destruct W as (_ & Fa). split.
  - cbn. rewrite map_app. cbn. eapply NoDup_perm with (l := x :: null :: hd :: inorder t ++ map fst F).
    + rewrite fst_cells. perm.
    + now constructor.
  - rewrite Forall_forall in *. intros (y, d) I. cbn in I. rewrite in_app_iff in I. cbn in I.
    destruct I as [E|[I|[E|I]]].
    + injection E as <- <-. cbn. rewrite upd_neq; [|intros ->; apply N; cbn; auto]. apply (Fa (hd, _)). now left.
    + cbn. rewrite upd_neq; [apply (Fa (y, d)); right; rewrite in_app_iff; auto|].
      intros ->. apply N. right. right. rewrite in_app_iff. left. eapply Permutation_in; [apply fst_cells|].
      apply (in_map fst) in I. exact I.
    + injection E as <- <-. cbn. apply upd_eq.
    + cbn. rewrite upd_neq; [apply (Fa (y, d)); right; rewrite in_app_iff; auto|].
      intros ->. apply N. right. right. rewrite in_app_iff. right. apply (in_map fst) in I. exact I.
Qed.

Section Ord.
Variables V K : Type.
Variable throws : nat -> bool.
Variable pick : list node -> node.
Variable dv : V.
Hypothesis pick_ok : forall l, ~ In (pick l) (null :: l).
Variable key : V -> K.
Variable lt : K -> K -> bool.
Variable uniq : bool.
Variable rk : bool.
Variable hd : node.
Variable junk : cell.
Variable L : Layer V.
Variable S : Spec V.
Variable rep : St L -> AV S -> Prop.
Variable shell : St L -> Prop.
Hypothesis O : OK throws pick dv hd L S rep shell.
Hypothesis W : swo lt.
Notation OM := (OM L).
Notation val := (val dv).
Notation sorted := (sorted key lt uniq).
Notation adm := (adm key lt uniq).
Notation last_adm := (last_adm key lt uniq).

(** the links of the index represent the sequence [l] *)
Definition has (h : heap) (l : list node) : Prop :=
  exists t hs, tat hd hs h t [] /\ rbt rk t /\ inorder t = l.

Definition ord_rep (st : ost L) (a : list node * AV S) : Prop := has (fst st) (fst a) /\ rep (snd st) (snd a).
Definition ord_shell (st : ost L) : Prop := (exists c, fst st hd = Some c) /\ hd <> null /\ shell (snd st).

(** ** values *)
Lemma sorted_ext (vl vl' : node -> V) l : (forall x, In x l -> vl x = vl' x) -> sorted vl l -> sorted vl' l.
Proof.
  intros E. induction 1 as [|x l So IH Fa]; constructor.
  - apply IH. intros; apply E; now right.
  - rewrite Forall_forall in *. intros y I. rewrite <- !E by (cbn; auto). auto.
Qed.
Lemma adm_ext (vl vl' : node -> V) k l1 l2 : (forall x, In x (l1 ++ l2) -> vl x = vl' x) ->
  adm vl k l1 l2 -> adm vl' k l1 l2.
Proof.
  intros E (A & B). split; rewrite Forall_forall in *; intros y I;
    rewrite <- E by (rewrite in_app_iff; auto); auto.
Qed.
Lemma last_adm_ext (vl vl' : node -> V) k l1 l2 : (forall x, In x (l1 ++ l2) -> vl x = vl' x) ->
  last_adm vl k l1 l2 -> last_adm vl' k l1 l2.
Proof.
  intros E (A & B). split; rewrite Forall_forall in *; intros y I;
    rewrite <- E by (rewrite in_app_iff; auto); auto.
Qed.

(** ** running operations on the tree *)
Lemma wp_tree {A B} (m : nat -> HM A) (k : A -> OM B) (Q : B -> ost L -> Prop) (E : ost L -> Prop) h s :
  wp (m (cget L s + 4)) (fun a h' => wp (k a) Q E (h', s)) noexn h ->
  wp (bind (tree L m) k) Q E (h, s).
Proof.
  intros H. unfold tree. apply wp_bind, wp_bind, wp_sup. unfold Layer.size, wp at 1.
  apply wp_own. eapply wp_conseq; [exact H|auto|easy].
Qed.
Lemma wp_unlink {B} (k : unit -> OM B) (Q : B -> ost L -> Prop) (E : ost L -> Prop) h s t hs l1 x l2 :
  tat hd hs h t [] -> rbt rk t -> inorder t = l1 ++ x :: l2 -> size t <= Datatypes.S (cget L s) ->
  (forall h' t' cx, tat hd hs h' t' [(x, cx)] -> rbt rk t' -> inorder t' = l1 ++ l2 ->
     wp (k tt) Q E (h', s)) ->
  wp (bind (unlink rk hd L x) k) Q E (h, s).
Proof.
  intros TA R I Sz H. unfold unlink. apply wp_bind. apply wp_tree.
  eapply wp_conseq; [eapply rebalance_for_extract_spec with (1 := TA); eauto; lia| |easy].
  intros r h' (-> & t' & cz & T' & I' & R'). apply wp_ret. eauto.
Qed.
Lemma wp_link {B} (k : unit -> OM B) (Q : B -> ost L -> Prop) (E0 : ost L -> Prop) h s c hs x cx :
  tat hd hs h (plug c E) [(x, cx)] -> rbt rk (plug c E) -> size (plug c E) <= cget L s ->
  (forall h', has h' (lefts c ++ x :: rights c) -> wp (k tt) Q E0 (h', s)) ->
  wp (bind (tree L (fun f => link rk hd f x (kside c) (cpar hd c))) k) Q E0 (h, s).
Proof.
  intros TA R Sz H. apply wp_tree. assert (Kl := klen_size c E).
  eapply wp_conseq; [eapply link_spec with (1 := TA); auto; lia| |easy].
  intros [] h' (t' & T' & I' & R'). apply H. exists t', hs. auto.
Qed.
Lemma wp_restore {B} (k : unit -> OM B) (Q : B -> ost L -> Prop) (E : ost L -> Prop) h s t hs x cx l1 l2 :
  tat hd hs h t [(x, cx)] -> rbt rk t -> inorder t = l1 ++ l2 -> size t + 1 <= cget L s ->
  (forall h', has h' (l1 ++ x :: l2) -> wp (k tt) Q E (h', s)) ->
  wp (bind (tree L (fun f => restore rk hd f x (List.hd hd l2))) k) Q E (h, s).
Proof.
  intros TA R I Sz H. apply wp_tree.
  eapply wp_conseq; [eapply restore_spec with (1 := TA); eauto; lia| |easy].
  intros [] h' (t' & T' & I' & R'). apply H. exists t', hs. auto.
Qed.

Lemma conf_not_adm vl v l1 l2 y : In y (l1 ++ l2) -> o_conf key lt uniq v (vl y) -> ~ adm vl (key v) l1 l2.
Proof.
  intros I (U & C1 & C2) (A & B). unfold rel in *. rewrite U in *. rewrite Forall_forall in *.
  rewrite in_app_iff in I. destruct I as [I|I].
  - specialize (A y I). cbn in A. congruence.
  - specialize (B y I). cbn in B. congruence.
Qed.

(** ** moving a node whose value changes *)
Definition moved (vl : node -> V) (v : V) (x : node) (l1 l2 l' : list node) : Prop :=
  (adm vl (key v) l1 l2 /\ l' = l1 ++ x :: l2) \/
  (~ adm vl (key v) l1 l2 /\ exists m1 m2, l1 ++ l2 = m1 ++ m2 /\ l' = m1 ++ x :: m2 /\ last_adm vl (key v) m1 m2).

Lemma moved_mov vl vl' v x l1 l2 l' : NoDup (l1 ++ x :: l2) -> sorted vl (l1 ++ l2) ->
  (forall y, In y (l1 ++ l2) -> vl y = vl' y) -> vl' x = v ->
  moved vl v x l1 l2 l' ->
  o_mov key lt uniq hd vl' x (l1 ++ x :: l2) l' /\ sorted vl' l' /\
  (forall y, In y (l1 ++ x :: l2) -> y <> x -> ~ o_conf key lt uniq v (vl y)) /\
  Permutation (l1 ++ x :: l2) l'.
Proof.
  intros ND So Ev Ex M.
  assert (So' : sorted vl' (l1 ++ l2)) by (eapply sorted_ext; eauto).
  assert (Iff : sorted vl' (l1 ++ x :: l2) <-> adm vl (key v) l1 l2).
  { rewrite adm_sorted, Ex. split.
    - intros (_ & A). eapply adm_ext; [|exact A]. intros; symmetry; auto.
    - intros A. split; auto. eapply adm_ext; eauto. }
  assert (Nc : forall m1 m2, l1 ++ l2 = m1 ++ m2 -> adm vl (key v) m1 m2 ->
            forall y, In y (l1 ++ x :: l2) -> y <> x -> ~ o_conf key lt uniq v (vl y)).
  { intros m1 m2 Em A y I N C. eapply conf_not_adm; [|exact C|exact A]. rewrite <- Em.
    rewrite in_app_iff in *. cbn in I. destruct I as [I|[->|I]]; tauto. }
  destruct M as [(A & ->)|(A & m1 & m2 & Em & -> & LA)].
  - splits; auto.
    + unfold o_mov. splits; auto. intros N. now apply Iff in A.
    + now apply Iff.
    + eapply Nc; eauto.
  - assert (LA' : last_adm vl' (key (vl' x)) m1 m2).
    { rewrite Ex. eapply last_adm_ext; [|exact LA]. rewrite <- Em. auto. }
    assert (ND' : NoDup (m1 ++ x :: m2)).
    { eapply NoDup_perm; [|exact ND]. apply Permutation_elt. now rewrite Em. }
    assert (P : Permutation (l1 ++ x :: l2) (m1 ++ x :: m2)) by (apply Permutation_elt; now rewrite Em).
    splits; auto.
    + unfold o_mov. rewrite !remove_mid by auto. splits; auto.
      * intros N. now apply Iff in N.
      * intros _. exists m1, m2. splits; auto.
    + apply adm_sorted. rewrite <- Em. split; auto. now apply (last_adm_adm W).
    + eapply Nc; [exact Em|]. now apply (last_adm_adm W).
Qed.

Lemma o_move_spec h s l1 x l2 v (m : M (St L) bool) (Qm : nat -> bool -> St L -> Prop) (Em : nat -> St L -> Prop) :
  has h (l1 ++ x :: l2) -> (forall y, In y (l1 ++ x :: l2) -> live (bget L s) y) ->
  sorted (val (bget L s)) (l1 ++ l2) -> length (l1 ++ x :: l2) = cget L s ->
  (forall n, quiet throws (tk (bget L s)) n ->
     wp m (fun r s' => cget L s' = cget L s /\ Qm n r s') (fun s' => cget L s' = cget L s /\ Em n s') (adv L n s)) ->
  wp (o_move_ throws key lt uniq rk hd L v x m)
    (fun r st' => exists n, quiet throws (tk (bget L s)) n /\
       ((r = false /\ (exists y, In y (l1 ++ l2) /\ o_conf key lt uniq v (val (bget L s) y)) /\
         snd st' = adv L n s /\ has (fst st') (l1 ++ x :: l2)) \/
        (cget L (snd st') = cget L s /\ Qm n r (snd st') /\
         if r : bool then exists l', has (fst st') l' /\ moved (val (bget L s)) v x l1 l2 l'
         else has (fst st') (l1 ++ x :: l2))))
    (fun st' => has (fst st') (l1 ++ x :: l2) /\
       ((exists n, blown throws (tk (bget L s)) n /\ snd st' = adv L n s) \/
        (exists n, quiet throws (tk (bget L s)) n /\ cget L (snd st') = cget L s /\ Em n (snd st'))))
    (h, s).
Proof.
  intros (t & hs & TA & R & I) LV So Sz Hm.
  assert (Sz' : size t = cget L s) by (rewrite size_inorder, I; auto).
  assert (CB : colr t = Black) by (destruct R as (_ & _ & CB & _); auto).
  unfold o_move_. eapply (Ro_wp O).
  { eapply in_place_spec with (1 := O) (2 := W) (3 := TA) (l1 := l1) (l2 := l2); auto; rewrite ?I; auto; lia. }
  2:{ intros n B. cbn. split; [exists t, hs; auto|]. left. eauto. }
  intros b n Hb q. destruct b.
  { apply wp_sup. eapply wp_conseq; [apply (Hm n q)| |].
    - intros r s' (C & H). exists n. split; auto. right. cbn. splits; auto.
      destruct r; [|exists t, hs; auto]. exists (l1 ++ x :: l2). split; [exists t, hs; auto|].
      left. split; auto. now apply Hb.
    - intros s' (C & H). cbn. split; [exists t, hs; auto|]. right. eauto. }
  assert (NA : ~ adm (val (bget L s)) (key v) l1 l2) by (intros A; apply Hb in A; discriminate).
  apply wp_tree. rewrite (adv_cget O).
  eapply wp_conseq; [eapply increment_spec with (hs := hs) (1 := TA) (2 := I); lia| |easy].
  intros nx h' (-> & ->).
  eapply wp_unlink; eauto; [rewrite (adv_cget O); lia|].
  intros h' t' cx T' R' I'.
  assert (CB' : colr t' = Black) by (destruct R' as (_ & _ & CB' & _); auto).
  assert (Sz2 : size t' + 1 = cget L s).
  { rewrite size_inorder, I', <- Sz, !app_length. cbn. lia. }
  apply wp_try. eapply Ro_wpn.
  - eapply link_point_spec with (1 := O) (2 := W) (3 := T'); auto; rewrite ?I'; auto; [|lia].
    intros y Iy. apply LV. rewrite in_app_iff in *. cbn. tauto.
  - intros (ok & sd & pos) n' Hp q'.
    assert (qq : quiet throws (tk (bget L s)) n') by (eapply quiet_trans; eauto).
    apply wp_bind. destruct ok.
    + apply wp_sup. eapply wp_conseq; [apply (Hm n' qq)| |].
      * intros r s' (C & H). destruct r.
        -- destruct Hp as (c & -> & -> & -> & LA). eapply wp_link; eauto; [lia|].
           intros h2 H2. apply wp_ret. exists n'. split; auto. right. cbn. splits; auto.
           exists (lefts c ++ x :: rights c). split; auto. right. split; auto.
           exists (lefts c), (rights c). splits; auto. rewrite <- I', inorder_plug. reflexivity.
        -- eapply wp_restore; eauto; [lia|]. intros h2 H2. apply wp_ret. exists n'. split; auto.
      * intros s' (C & H). eapply wp_restore; eauto; [lia|]. intros h2 H2. apply wp_throw. cbn. split; auto.
        right. eauto.
    + apply wp_ret. eapply wp_restore; eauto; [rewrite (adv_cget O); lia|]. intros h2 H2. apply wp_ret.
      exists n'. split; auto. left. splits; auto. destruct Hp as (Ip & U & C1 & C2). exists pos.
      rewrite <- I'. split; auto. split; auto.
  - intros n' B. eapply wp_restore; eauto; [rewrite (adv_cget O); lia|]. intros h2 H2. apply wp_throw.
    cbn. split; auto. left. exists n'. split; auto. eapply blown_trans; eauto.
Qed.

(** ** deleting all nodes *)
Lemma wp_delete_node {B} (k : unit -> OM B) Q E h s x : live (bget L s) x ->
  wp (k tt) Q E (h, bset L (mkB (mdel (mem (bget L s)) x) (tk (bget L s))) s) ->
  wp (bind (supM (basM L (delete_node x))) k) Q E (h, s).
Proof.
  intros (v & Lk) H. apply wp_bind, wp_sup, wp_lens. unfold delete_node, destroy_value, deallocate_node, bind, wp at 1.
  rewrite Lk. cbn - [mdel mset]. rewrite look_mset, Nat.eqb_refl, Lk. cbn - [mdel mset]. rewrite mdel_mset. exact H.
Qed.

Lemma del_all_spec t : forall fuel p Fr h s,
  wfc h (cells p t ++ Fr) -> (forall x, In x (inorder t) -> live (bget L s) x) -> size t < fuel ->
  wp (del_all L fuel (rootp t))
     (fun _ st => wfc (fst st) Fr /\
        snd st = bset L (mkB (without (inorder t) (mem (bget L s))) (tk (bget L s))) s)
     (fun _ => False) (h, s).
Proof.
  induction t as [|c n l IHl x r IHr]; intros fuel p Fr h s Wf LV Fu;
    (destruct fuel as [|f]; [lia|]); cbn [del_all rootp].
  - apply wp_ret. cbn [fst snd inorder]. split; auto. rewrite without_nil.
    replace (mkB (mem (bget L s)) (tk (bget L s))) with (bget L s) by now destruct (bget L s).
    now rewrite (o_gs O).
  - cbn [cells app] in Wf. rewrite <- app_assoc in Wf. cbn [size] in Fu.
    assert (N : x <> null) by (eapply wfc_nonnull; [exact Wf|]; now left).
    assert (Ex : h x = Some (mk (rootp l) (rootp r) p c n)) by (eapply wfc_get; [exact Wf|]; now left).
    assert (ND : NoDup (x :: inorder l ++ inorder r ++ map fst Fr)).
    { destruct Wf as (ND & _). cbn in ND. apply NoDup_cons_iff in ND. destruct ND as (_ & ND).
      eapply NoDup_perm; [|exact ND]. rewrite !map_app, !fst_cells. reflexivity. }
    apply Nat.eqb_neq in N. rewrite N.
    apply wp_bind, wp_own. unfold wp at 1, gl, rd. rewrite Ex. cbn [cl].
    apply wp_bind. eapply wp_conseq; [eapply (IHl f x ((x, mk (rootp l) (rootp r) p c n) :: cells x r ++ Fr))| |easy].
    { eapply wfc_perm; [exact Wf|]. cperm. }
    { intros y I. apply LV. cbn. rewrite in_app_iff. auto. }
    { lia. }
    intros [] (h1, s1) (W1 & E1). cbn [fst snd] in W1, E1.
    assert (B1 : bget L s1 = mkB (without (inorder l) (mem (bget L s))) (tk (bget L s))) by (subst s1; apply (o_bb O)).
    assert (Ex1 : h1 x = Some (mk (rootp l) (rootp r) p c n)) by (eapply wfc_get; [exact W1|]; now left).
    apply wp_bind, wp_own. unfold wp at 1, gr, rd. rewrite Ex1. cbn [cr].
    apply wp_bind. eapply wp_conseq; [eapply (IHr f x ((x, mk (rootp l) (rootp r) p c n) :: Fr))| |easy].
    { eapply wfc_perm; [exact W1|]. cperm. }
    { intros y I. destruct (LV y) as (v & Lk); [cbn; rewrite in_app_iff; cbn; auto|]. exists v. rewrite B1. cbn.
      rewrite look_without; auto. intros J. apply NoDup_cons_iff in ND. destruct ND as (_ & ND).
      apply NoDup_app_iff in ND. destruct ND as (_ & _ & ND). apply (ND y J). rewrite in_app_iff. auto. }
    { lia. }
    intros [] (h2, s2) (W2 & E2). cbn [fst snd] in W2, E2. rewrite B1 in E2. cbn [mem tk] in E2.
    rewrite E1, (o_ss O), without_app in E2.
    assert (B2 : bget L s2 = mkB (without (inorder l ++ inorder r) (mem (bget L s))) (tk (bget L s))) by (subst s2; apply (o_bb O)).
    apply wp_delete_node.
    { rewrite B2. destruct (LV x) as (v & Lk); [cbn; rewrite in_app_iff; cbn; auto|]. exists v. cbn.
      rewrite look_without; auto. intros J. apply NoDup_cons_iff in ND. apply (proj1 ND).
      rewrite app_assoc, in_app_iff. auto. }
    apply wp_own. unfold wp, free.
    assert (Ex2 : h2 x = Some (mk (rootp l) (rootp r) p c n)) by (eapply wfc_get; [exact W2|]; now left).
    rewrite Ex2. cbn [fst snd]. split.
    + destruct W2 as (N2 & F2). cbn in N2. split; [apply NoDup_remove_1 with (l := [null]) (a := x); exact N2|].
      inversion F2 as [|? ? _ F3]; subst. rewrite Forall_forall in *. intros (y, d) I. cbn. rewrite upd_neq.
      * apply (F3 _ I).
      * intros ->. apply (in_map fst) in I. apply NoDup_cons_iff in N2. destruct N2 as (_ & N2).
        apply NoDup_cons_iff in N2. now apply (proj1 N2).
    + rewrite B2. cbn [mem tk]. rewrite E2, (o_ss O), without_one, without_app. do 2 f_equal.
      apply without_perm. cbn [inorder]. perm.
Qed.

Lemma wp_oval {B} (k : V -> OM B) Q E h s x : live (bget L s) x ->
  wp (k (val (bget L s) x)) Q E (h, s) -> wp (bind (oval L x) k) Q E (h, s).
Proof.
  intros Lx H. apply wp_bind. unfold oval. apply wp_sup, wp_lens. unfold wp at 1, value.
  rewrite (live_val dv Lx), (o_gs O). exact H.
Qed.

(** ** modify_ *)
Lemma o_modify_spec h s l1 x l2 a lk :
  has h (l1 ++ x :: l2) -> rep s a -> inv hd (bget L s) ((l1 ++ x :: l2) :: els S a) lk -> cget L s = length lk ->
  sorted (val (bget L s)) (l1 ++ l2) -> nearly S (val (bget L s)) x a ->
  wp (o_modify_ throws key lt uniq rk hd L x)
    (fun r st' => cget L (snd st') = cget L s /\ quiet throws (tk (bget L s)) (tk (bget L (snd st'))) /\
       mem (bget L (snd st')) = mem (bget L s) /\
       if r : bool then
         (exists l', has (fst st') l' /\ moved (val (bget L s)) (val (bget L s) x) x l1 l2 l') /\
         (forall y, In y lk -> y <> x -> ~ aconf S (val (bget L s) x) (val (bget L s) y)) /\
         exists a', rep (snd st') a' /\ amov S (val (bget L s)) x a a' /\ aok S (val (bget L s)) a'
       else
         has (fst st') (l1 ++ l2) /\ rep (snd st') (arem S x a) /\
         ((exists y, In y (l1 ++ l2) /\ o_conf key lt uniq (val (bget L s) x) (val (bget L s) y)) \/
          exists y, In y lk /\ y <> x /\ aconf S (val (bget L s) x) (val (bget L s) y)))
    (fun st' => has (fst st') (l1 ++ l2) /\ rep (snd st') (arem S x a) /\ cget L (snd st') = cget L s /\
       mem (bget L (snd st')) = mem (bget L s) /\ blown throws (tk (bget L s)) (tk (bget L (snd st'))))
    (h, s).
Proof.
  intros (t & hs & TA & R & I) Rp Iv Cg So Ao.
  assert (Pl := inv_hd Iv). assert (Iv' := inv_tl Iv).
  assert (LV : forall y, In y (l1 ++ x :: l2) -> live (bget L s) y).
  { intros y Iy. apply (i_live Iv). eapply Permutation_in; eauto. }
  assert (Sz : length (l1 ++ x :: l2) = cget L s) by (rewrite Cg; now apply Permutation_length).
  assert (Sz' : size t = cget L s) by (rewrite size_inorder, I; auto).
  assert (CB : colr t = Black) by (destruct R as (_ & _ & CB & _); auto).
  assert (Ix : In x lk) by (eapply Permutation_in; [exact Pl|]; rewrite in_app_iff; cbn; auto).
  assert (Lx : live (bget L s) x) by (apply LV; rewrite in_app_iff; cbn; auto).
  assert (ND : NoDup (l1 ++ x :: l2)) by (eapply NoDup_perm; [symmetry; exact Pl|apply (i_nd Iv)]).
  assert (Ext : forall n h' (B : Type) (k : unit -> OM B) Q E,
     (forall s', rep s' (arem S x a) -> cget L s' = cget L s -> bget L s' = bget L (adv L n s) -> wp (k tt) Q E (h', s')) ->
     wp (bind (supM (l_extract L x)) k) Q E (h', adv L n s)).
  { intros n h' B k Q E H. apply wp_bind, wp_sup. eapply wp_conseq; [apply (o_extract O) with (a := a)| |easy].
    - now apply (o_repb O).
    - rewrite (adv_cget O). assert (Pm := i_perm Iv'). rewrite Forall_forall in *. intros l Il.
      specialize (Pm l Il). splits.
      + eapply NoDup_perm; [symmetry; exact Pm|apply (i_nd Iv)].
      + eapply Permutation_in; [symmetry; exact Pm|exact Ix].
      + rewrite (Permutation_length Pm). lia.
    - intros [] s' (R' & C' & B'). rewrite (adv_cget O) in C'. auto. }
  unfold o_modify_. apply wp_bind, wp_try. eapply (Ro_wp1 O).
  { apply (Ro_val O); auto. eapply in_place_spec with (1 := O) (2 := W) (3 := TA) (l1 := l1) (l2 := l2); auto; rewrite ?I; auto; lia. }
  2:{ intros n B. apply wp_bind. unfold o_extract_. eapply wp_unlink; eauto; [rewrite (adv_cget O); lia|].
      intros h' t' cx T' R' I'.
      cut (wp (bind (supM (l_extract L x)) (fun _ => throw)) (fun (a : bool) (_ : ost L) => False)
             (fun st' => has (fst st') (l1 ++ l2) /\ rep (snd st') (arem S x a) /\ cget L (snd st') = cget L s /\
                mem (bget L (snd st')) = mem (bget L s) /\ blown throws (tk (bget L s)) (tk (bget L (snd st'))))
             (h', adv L n s)).
      { unfold wp, bind, throw. destruct (supM (l_extract L x) (h', adv L n s)); auto. }
      apply Ext. intros s' Rs Cs Bs. apply wp_throw. cbn. splits; auto.
      - exists t', hs. splits; auto. eapply tat_drop; eauto.
      - now rewrite Bs, (adv_mem O).
      - now rewrite Bs, (adv_tk O). }
  intros b n Hb q.
  (* second half *)
  assert (Rest : forall h' n' l', has h' l' -> quiet throws (tk (bget L s)) n' ->
    moved (val (bget L s)) (val (bget L s) x) x l1 l2 l' ->
    wp (try_catch (b0 <- supM (l_modify L x) ;; if b0 : bool then ret true else unlink rk hd L x ;;; ret false)
                  (unlink rk hd L x ;;; throw))
    (fun r st' => cget L (snd st') = cget L s /\ quiet throws (tk (bget L s)) (tk (bget L (snd st'))) /\
       mem (bget L (snd st')) = mem (bget L s) /\
       if r : bool then
         (exists l', has (fst st') l' /\ moved (val (bget L s)) (val (bget L s) x) x l1 l2 l') /\
         (forall y, In y lk -> y <> x -> ~ aconf S (val (bget L s) x) (val (bget L s) y)) /\
         exists a', rep (snd st') a' /\ amov S (val (bget L s)) x a a' /\ aok S (val (bget L s)) a'
       else
         has (fst st') (l1 ++ l2) /\ rep (snd st') (arem S x a) /\
         ((exists y, In y (l1 ++ l2) /\ o_conf key lt uniq (val (bget L s) x) (val (bget L s) y)) \/
          exists y, In y lk /\ y <> x /\ aconf S (val (bget L s) x) (val (bget L s) y)))
    (fun st' => has (fst st') (l1 ++ l2) /\ rep (snd st') (arem S x a) /\ cget L (snd st') = cget L s /\
       mem (bget L (snd st')) = mem (bget L s) /\ blown throws (tk (bget L s)) (tk (bget L (snd st'))))
    (h', adv L n' s)).
  { intros h' n' l' (t' & hs' & T' & R' & I') q' Mv.
    assert (El : exists m1 m2, l' = m1 ++ x :: m2 /\ m1 ++ m2 = l1 ++ l2).
    { destruct Mv as [(_ & ->)|(_ & m1 & m2 & E & -> & _)]; eauto. }
    destruct El as (m1 & m2 & -> & Em).
    assert (Sz2 : size t' = cget L s).
    { rewrite size_inorder, I', <- Sz, !app_length. cbn.
      assert (Q := f_equal (@length _) Em). rewrite !app_length in Q. lia. }
    assert (Ev : forall y, val (bget L (adv L n' s)) y = val (bget L s) y) by (intros; apply val_mem, (adv_mem O)).
    apply wp_try. apply wp_bind, wp_sup. eapply wp_conseq.
    { apply (o_modify O) with (a := a) (lk := lk).
      - now apply (o_repb O).
      - eapply inv_mem; [|exact Iv']. symmetry. apply (adv_mem O).
      - now rewrite (adv_cget O).
      - eapply nearly_ext; [exact Ao|]. intros; symmetry; apply Ev.
      - exact Ix. }
    - intros r s' (C1 & Q1 & M1 & H). rewrite (adv_cget O) in C1. rewrite (adv_tk O) in Q1. rewrite (adv_mem O) in M1.
      assert (QQ : quiet throws (tk (bget L s)) (tk (bget L s'))) by (eapply quiet_trans; eauto).
      destruct r.
      + apply wp_ret. cbn [fst snd]. splits; auto.
        * exists (m1 ++ x :: m2). split; [exists t', hs'; auto|exact Mv].
        * intros y Iy Ny. destruct H as (H & _). rewrite <- !Ev. now apply H.
        * destruct H as (_ & a' & Ra & Am & Aa). exists a'. splits; auto.
          -- assert (Fe : (val (bget L (adv L n' s))) = val (bget L s)).
             { unfold Layer.val. now rewrite (adv_mem O). }
             now rewrite <- Fe.
          -- eapply (o_ext O); [exact Aa|]. intros; apply Ev.
      + destruct H as (Ra & y & Iy & Ny & Cy).
        eapply wp_unlink with (1 := T'); eauto; [lia|]. intros h2 t2 cx T2 R2 I2. apply wp_ret. cbn [fst snd]. splits; auto.
        * exists t2, hs'. splits; auto; [eapply tat_drop; eauto|congruence].
        * right. exists y. splits; auto. now rewrite <- !Ev.
    - intros s' (Ra & C1 & M1 & B1). rewrite (adv_cget O) in C1. rewrite (adv_tk O) in B1. rewrite (adv_mem O) in M1.
      eapply wp_unlink with (1 := T'); eauto; [lia|]. intros h2 t2 cx T2 R2 I2. apply wp_throw. cbn [fst snd]. splits; auto.
      + exists t2, hs'. splits; auto; [eapply tat_drop; eauto|congruence].
      + eapply blown_trans; eauto. }
  destruct b.
  { apply wp_bind, wp_ret. apply (Rest h n (l1 ++ x :: l2)); auto; [exists t, hs; auto|]. left. split; auto. now apply Hb. }
  assert (NA : ~ adm (val (bget L s)) (key (val (bget L s) x)) l1 l2) by (intros A; apply Hb in A; discriminate).
  apply wp_bind. eapply wp_unlink; eauto; [rewrite (adv_cget O); lia|].
  intros h' t' cx T' R' I'.
  assert (CB' : colr t' = Black) by (destruct R' as (_ & _ & CB' & _); auto).
  assert (Sz2 : size t' + 1 = cget L s).
  { rewrite size_inorder, I', <- Sz, !app_length. cbn. lia. }
  assert (Hd : has h' (l1 ++ l2)) by (exists t', hs; splits; auto; eapply tat_drop; eauto).
  apply wp_try.
  assert (Ev : forall n y, val (bget L (adv L n s)) y = val (bget L s) y) by (intros; apply val_mem, (adv_mem O)).
  apply wp_oval; [eapply live_mem; [|exact Lx]; symmetry; apply (adv_mem O)|]. rewrite Ev.
  eapply Ro_wpn.
  - eapply link_point_spec with (1 := O) (2 := W) (3 := T'); auto; rewrite ?I'; auto; [|lia].
    intros y Iy. apply LV. rewrite in_app_iff in *. cbn. tauto.
  - intros (ok & sd & pos) n' Hp q'.
    assert (qq : quiet throws (tk (bget L s)) n') by (eapply quiet_trans; eauto).
    destruct ok.
    + destruct Hp as (c & -> & -> & -> & LA). eapply wp_link; eauto; [rewrite (adv_cget O); lia|].
      intros h2 H2. apply wp_ret. eapply Rest; eauto. right. split; auto.
      exists (lefts c), (rights c). splits; auto. rewrite <- I', inorder_plug. reflexivity.
    + apply Ext. intros s' Rs Cs Bs. apply wp_ret. apply wp_ret. cbn [fst snd]. splits; auto.
      * now rewrite Bs, (adv_tk O).
      * now rewrite Bs, (adv_mem O).
      * left. destruct Hp as (Ip & U & C1 & C2). exists pos. rewrite <- I'. split; auto. split; auto.
  - intros n' B.
    apply Ext. intros s' Rs Cs Bs. apply wp_throw. cbn. splits; auto.
    + now rewrite Bs, (adv_mem O).
    + rewrite Bs, (adv_tk O). eapply blown_trans; eauto.
Qed.
End Ord.
