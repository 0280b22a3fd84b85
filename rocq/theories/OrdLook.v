(** Read-only operations of ordered indices: where to link, lookup, ranges. *)
From Verif Require Import Prelude OrdModel OrdTree OrdHeap OrdRot OrdLink OrdTrav Layer LayerBase OrdIdx OrdSpec.
Set Implicit Arguments.
Local Notation size := OrdTree.size.

(** ** Lists *)
Lemma find_mid (p : node -> bool) l1 x l2 : Forall (fun y => p y = false) l1 ->
  List.find p (l1 ++ x :: l2) = if p x then Some x else List.find p l2.
Proof. induction 1 as [|y l1 H _ IH]; cbn; [easy|]. now rewrite H. Qed.
Lemma find_all (p : node -> bool) l1 l2 : Forall (fun y => p y = true) l2 ->
  List.find p (l1 ++ l2) = match List.find p l1 with Some x => Some x | None => hd_error l2 end.
Proof.
  intros H. induction l1 as [|y l1 IH]; cbn.
  - destruct H as [|z l2 H _]; cbn; auto. now rewrite H.
  - destruct (p y); auto.
Qed.
Lemma find_none_all (p : node -> bool) l : Forall (fun y => p y = false) l -> List.find p l = None.
Proof. induction 1 as [|y l1 H _ IH]; cbn; [easy|]. now rewrite H. Qed.

Lemma sorted_app {A} (R : A -> A -> Prop) l1 l2 :
  StronglySorted R (l1 ++ l2) <->
  StronglySorted R l1 /\ StronglySorted R l2 /\ (forall x y, In x l1 -> In y l2 -> R x y).
Proof.
  induction l1 as [|a l1 IH]; cbn.
  - split; [intros; splits; auto; try constructor; easy|tauto].
  - split.
    + intros H. inversion H as [|? ? S F]; subst. apply IH in S. destruct S as (S1 & S2 & S3).
      apply Forall_app in F. destruct F as (F1 & F2). splits; auto.
      * constructor; auto.
      * intros x y [<-|I] J; auto. rewrite Forall_forall in F2. auto.
    + intros (S1 & S2 & S3). inversion S1 as [|? ? S F]; subst. constructor.
      * apply IH. splits; auto.
      * apply Forall_app. split; auto. rewrite Forall_forall. intros; apply S3; auto.
Qed.
Lemma sorted_mid {A} (R : A -> A -> Prop) l1 x l2 :
  StronglySorted R (l1 ++ x :: l2) <->
  StronglySorted R (l1 ++ l2) /\ Forall (fun y => R y x) l1 /\ Forall (fun y => R x y) l2.
Proof.
  rewrite !sorted_app. rewrite !Forall_forall. split.
  - intros (S1 & S2 & S3). inversion S2 as [|? ? S F]; subst. rewrite Forall_forall in F.
    splits; auto; intros; apply S3; cbn; auto.
  - intros ((S1 & S2 & S3) & F1 & F2). splits; auto.
    + constructor; auto. now apply Forall_forall.
    + intros a b I [<-|J]; auto.
Qed.
Lemma mono_mid p l1 x l2 : mono p (l1 ++ x :: l2) ->
  mono p l1 /\ mono p l2 /\
  (p x = false -> Forall (fun y => p y = false) l1) /\ (p x = true -> Forall (fun y => p y = true) l2).
Proof.
  intros H. apply sorted_mid in H. destruct H as (H & F1 & F2). apply sorted_app in H.
  destruct H as (H1 & H2 & _). splits; auto; intros E.
  - eapply Forall_impl; [|exact F1]. cbn. intros y I. destruct (p y); auto. rewrite I in E; auto.
  - eapply Forall_impl; [|exact F2]. cbn. auto.
Qed.

Lemma mono_split p m : mono p m -> exists m1 m2, m = m1 ++ m2 /\ Forall (fun y => p y = false) m1 /\
  Forall (fun y => p y = true) m2.
Proof.
  induction 1 as [|x m H IH F].
  - exists [], []. splits; auto.
  - destruct (p x) eqn:Px.
    + exists [], (x :: m). splits; auto. constructor; auto. eapply Forall_impl; [|exact F]; cbn; auto.
    + destruct IH as (m1 & m2 & -> & F1 & F2). exists (x :: m1), m2. splits; auto.
Qed.
Lemma find_split p (m1 m2 : list node) : Forall (fun y => p y = false) m1 -> Forall (fun y => p y = true) m2 ->
  List.find p (m1 ++ m2) = hd_error m2.
Proof.
  intros F1 F2. rewrite find_all by auto. now rewrite find_none_all.
Qed.
Lemma filter_all {A} (p : A -> bool) m : Forall (fun y => p y = true) m -> filter p m = m.
Proof. induction 1 as [|x m H _ IH]; cbn; auto. now rewrite H, IH. Qed.
Lemma filter_none {A} (p : A -> bool) m : Forall (fun y => p y = false) m -> filter p m = [].
Proof. induction 1 as [|x m H _ IH]; cbn; auto. now rewrite H. Qed.

(** the three parts of a cut *)
Lemma cut_split below above m : cut below above m -> exists m1 m2 m3, m = m1 ++ m2 ++ m3 /\
  Forall (fun y => below y = true) m1 /\
  Forall (fun y => below y = false /\ above y = false) m2 /\
  Forall (fun y => above y = true) m3 /\
  Forall (fun y => above y = false) (m1 ++ m2) /\ Forall (fun y => below y = false) (m2 ++ m3).
Proof.
  intros [Mb Ma Ex]. destruct (mono_split Mb) as (m1 & m' & -> & F1 & F2).
  apply sorted_app in Ma. destruct Ma as (Ma1 & Ma2 & Ma3).
  destruct (mono_split Ma2) as (m2 & m3 & -> & F3 & F4). exists m1, m2, m3.
  assert (B1 : Forall (fun y => below y = true) m1).
  { eapply Forall_impl; [|exact F1]. cbn. intros y. now destruct (below y). }
  assert (B2 : Forall (fun y => below y = false) (m2 ++ m3)).
  { eapply Forall_impl; [|exact F2]. cbn. intros y. now destruct (below y). }
  splits; auto.
  - apply Forall_app in B2. destruct B2 as (B2 & _). rewrite Forall_forall in *. auto.
  - apply Forall_app. split; auto. rewrite Forall_forall in *. intros y I. apply Ex; auto.
    rewrite in_app_iff. auto.
Qed.

Lemma mono_neg p m : mono (fun x => negb (negb (p x))) m -> mono p m.
Proof.
  unfold mono. intros Mb. induction Mb as [|a m H IH F]; constructor; auto.
  eapply Forall_impl; [|exact F]. cbn. intros z. rewrite !negb_involutive. auto.
Qed.

Section Look.
Variables V K : Type.
Variable throws : nat -> bool.
Variable pick : list node -> node.
Variable dv : V.
Variable key : V -> K.
Variable lt : K -> K -> bool.
Variable uniq : bool.
Variable rk : bool.
Variable hd : node.
Variable L : Layer V.
Variable S : Spec V.
Variable rep : St L -> AV S -> Prop.
Variable shell : St L -> Prop.
Hypothesis O : OK throws pick dv hd L S rep shell.
Hypothesis W : swo lt.
Notation OM := (OM L).

(** ** Computations which change nothing but the clock *)
Section State.
Variable h : heap.
Variable s : St L.
Notation b := (bget L s).
Notation vl := (val dv b).
Notation kx := (fun x => key (val dv b x)).

Definition Ro {A} (m : OM A) (P : A -> Prop) : Prop := forall n,
  wp m (fun a st => P a /\ exists n', quiet throws n n' /\ st = (h, adv L n' s))
       (fun st => exists n', blown throws n n' /\ st = (h, adv L n' s)) (h, adv L n s).

Lemma adv_mem n : mem (bget L (adv L n s)) = mem b.
Proof. unfold adv. rewrite (o_bb O). reflexivity. Qed.
Lemma adv_tk n : tk (bget L (adv L n s)) = n.
Proof. unfold adv. rewrite (o_bb O). reflexivity. Qed.
Lemma adv_adv n m : adv L n (adv L m s) = adv L n s.
Proof. unfold adv. rewrite (o_bb O), (o_ss O). reflexivity. Qed.
Lemma adv_cget n : cget L (adv L n s) = cget L s.
Proof. unfold adv. apply (o_cb O). Qed.
Lemma adv_self : adv L (tk b) s = s.
Proof. unfold adv. destruct b eqn:E. cbn. rewrite <- E. apply (o_gs O). Qed.

Lemma Ro_wp {A B} (m : OM A) P (k : A -> OM B) Q E : Ro m P ->
  (forall a n, P a -> quiet throws (tk b) n -> wp (k a) Q E (h, adv L n s)) ->
  (forall n, blown throws (tk b) n -> E (h, adv L n s)) ->
  wp (bind m k) Q E (h, s).
Proof.
  intros R H1 H2. apply wp_bind. rewrite <- adv_self at 1. eapply wp_conseq; [apply R| |].
  - intros a st (Pa & n & q & ->). auto.
  - intros st (n & q & ->). auto.
Qed.
Lemma Ro_wpn {A B} (m : OM A) P (k : A -> OM B) Q E n : Ro m P ->
  (forall a n', P a -> quiet throws n n' -> wp (k a) Q E (h, adv L n' s)) ->
  (forall n', blown throws n n' -> E (h, adv L n' s)) ->
  wp (bind m k) Q E (h, adv L n s).
Proof.
  intros R H1 H2. apply wp_bind. eapply wp_conseq; [apply R| |].
  - intros a st (Pa & n' & q & ->). auto.
  - intros st (n' & q & ->). auto.
Qed.
Lemma Ro_wp1 {A} (m : OM A) P (Q : A -> ost L -> Prop) (E : ost L -> Prop) : Ro m P ->
  (forall a n, P a -> quiet throws (tk b) n -> Q a (h, adv L n s)) ->
  (forall n, blown throws (tk b) n -> E (h, adv L n s)) ->
  wp m Q E (h, s).
Proof.
  intros R H1 H2. rewrite <- adv_self at 1. eapply wp_conseq; [apply R| |].
  - intros a st (Pa & n & q & ->). auto.
  - intros st (n & q & ->). auto.
Qed.
Lemma Ro_conseq {A} (m : OM A) (P P' : A -> Prop) : Ro m P -> (forall a, P a -> P' a) -> Ro m P'.
Proof.
  intros R H n. eapply wp_conseq; [apply R| |]; cbn; auto. intros a st (Pa & r). auto.
Qed.
Lemma Ro_ret {A} (a : A) (P : A -> Prop) : P a -> Ro (ret a) P.
Proof. intros H n. apply wp_ret. split; auto. exists n. split; auto. apply quiet_refl. Qed.
Lemma Ro_bind {A B} (m : OM A) P (k : A -> OM B) P' :
  Ro m P -> (forall a, P a -> Ro (k a) P') -> Ro (bind m k) P'.
Proof.
  intros R H n. apply wp_bind. eapply wp_conseq; [apply R| |]; cbn; auto.
  intros a st (Pa & n1 & q1 & ->). eapply wp_conseq; [apply (H a Pa)| |]; cbn.
  - intros a' st (Pa' & n2 & q2 & ->). split; auto. exists n2. split; auto. eapply quiet_trans; eauto.
  - intros st (n2 & q2 & ->). exists n2. split; auto. eapply blown_trans; eauto.
Qed.
Lemma Ro_val {B} x (k : V -> OM B) P' : live b x -> Ro (k (vl x)) P' -> Ro (bind (oval L x) k) P'.
Proof.
  intros Lx H n. apply wp_bind. unfold oval. apply wp_sup. apply wp_lens. unfold wp, value.
  rewrite adv_mem, (live_val dv Lx). replace (bset L (bget L (adv L n s)) (adv L n s)) with (adv L n s).
  - apply H.
  - symmetry. apply (o_gs O).
Qed.
Lemma Ro_ucall {A B} (a : A) (k : A -> OM B) P' : Ro (k a) P' -> Ro (bind (ucall throws L a) k) P'.
Proof.
  intros H n. unfold ucall. apply wp_bind, wp_bind. apply wp_sup. apply wp_lens. unfold wp at 1, tick.
  rewrite adv_mem, adv_tk.
  assert (E : bset L (mkB (mem b) (Datatypes.S n)) (adv L n s) = adv L (Datatypes.S n) s).
  { unfold adv. apply (o_ss O). }
  destruct (throws n) eqn:T; rewrite E; clear E.
  - exists (Datatypes.S n). split; auto. now apply blown_S.
  - apply wp_ret. eapply wp_conseq; [apply H| |]; cbn.
    + intros a' st (Pa & n2 & q2 & ->). split; auto. exists n2. split; auto.
      eapply quiet_trans; [apply quiet_S; eauto|auto].
    + intros st (n2 & q2 & ->). exists n2. split; auto. eapply blown_trans; [apply quiet_S; eauto|auto].
Qed.
Lemma Ro_ucall1 {A} (a : A) (P : A -> Prop) : P a -> Ro (ucall throws L a) P.
Proof.
  intros H. apply Ro_conseq with (P := P); auto.
  assert (R : Ro (bind (ucall throws L a) (@ret _ _)) P) by (apply Ro_ucall; now apply Ro_ret).
  intros n. specialize (R n). unfold wp, bind in R |- *.
  destruct (ucall throws L a (h, adv L n s)); auto.
Qed.
Lemma Ro_own {A B} (m : HM A) (P : A -> Prop) (k : A -> OM B) P' :
  wp m (fun a h' => P a /\ h' = h) noexn h -> (forall a, P a -> Ro (k a) P') -> Ro (bind (ownM m) k) P'.
Proof.
  intros H1 H2 n. apply wp_bind, wp_own. eapply wp_conseq; [exact H1| |easy].
  intros a h' (Pa & ->). apply H2; auto.
Qed.
Lemma Ro_own1 {A} (m : HM A) (P : A -> Prop) :
  wp m (fun a h' => P a /\ h' = h) noexn h -> Ro (ownM m) P.
Proof.
  intros H1 n. apply wp_own. eapply wp_conseq; [exact H1| |easy].
  intros a h' (Pa & ->). split; auto. exists n. split; auto. apply quiet_refl.
Qed.
Lemma Ro_size {B} (k : nat -> OM B) P' : Ro (k (cget L s)) P' -> Ro (bind (supM (Layer.size L)) k) P'.
Proof.
  intros H n. apply wp_bind, wp_sup. unfold Layer.size, wp at 1. rewrite adv_cget. apply H.
Qed.
Lemma Ro_bound {B} (k : nat -> OM B) P' : Ro (k (cget L s + 4)) P' -> Ro (bind (bound L) k) P'.
Proof.
  intros H n. unfold bound. apply wp_bind. apply wp_bind, wp_sup. unfold Layer.size, wp at 1.
  rewrite adv_cget. apply wp_ret. apply H.
Qed.
Lemma Ro_tree {A B} (m : nat -> HM A) (P : A -> Prop) (k : A -> OM B) P' :
  wp (m (cget L s + 4)) (fun a h' => P a /\ h' = h) noexn h -> (forall a, P a -> Ro (k a) P') ->
  Ro (bind (tree L m) k) P'.
Proof.
  intros H1 H2 n. unfold tree. apply wp_bind. apply wp_bind, wp_sup. unfold Layer.size, wp at 1.
  rewrite adv_cget. apply wp_own. eapply wp_conseq; [exact H1| |easy].
  intros a h' (Pa & ->). apply H2; auto.
Qed.
Lemma Ro_tree1 {A} (m : nat -> HM A) (P : A -> Prop) :
  wp (m (cget L s + 4)) (fun a h' => P a /\ h' = h) noexn h -> Ro (tree L m) P.
Proof.
  intros H n. unfold tree. apply wp_bind, wp_sup. unfold Layer.size, wp at 1. rewrite adv_cget.
  apply wp_own. eapply wp_conseq; [exact H| |easy].
  intros a h' (Pa & ->). split; auto. exists n. split; auto. apply quiet_refl.
Qed.

(** reading the fields of the nodes of a subtree *)
Lemma cells_eta p t F : wfc h (cells p t ++ F) -> forall c n l x r, t = T c n l x r ->
  h x = Some (mk (rootp l) (rootp r) p c n) /\ x <> null /\
  (exists F', wfc h (cells x l ++ F')) /\ (exists F', wfc h (cells x r ++ F')).
Proof.
  intros Wf c n l x r ->. cbn [cells app] in Wf. splits.
  - eapply wfc_get; [exact Wf|]. now left.
  - eapply wfc_nonnull; [exact Wf|]. now left.
  - eexists. eapply wfc_perm; [exact Wf|].
    instantiate (1 := (x, mk (rootp l) (rootp r) p c n) :: cells x r ++ F). cperm.
  - eexists. eapply wfc_perm; [exact Wf|].
    instantiate (1 := (x, mk (rootp l) (rootp r) p c n) :: cells x l ++ F). cperm.
Qed.
Lemma Ro_rd {A B} (f : cell -> A) x c (k : A -> OM B) P' :
  h x = Some c -> Ro (k (f c)) P' -> Ro (bind (ownM (rd f x)) k) P'.
Proof.
  intros E H. eapply Ro_own with (P := fun a => a = f c).
  - unfold wp, rd. now rewrite E.
  - now intros ? ->.
Qed.

Definition tree_in (p : node) (t : OrdTree.tree) : Prop :=
  (exists F, wfc h (cells p t ++ F)) /\ forall x, In x (inorder t) -> live b x.
Lemma tree_in_T p c n l x r : tree_in p (T c n l x r) ->
  h x = Some (mk (rootp l) (rootp r) p c n) /\ x <> null /\ live b x /\ tree_in x l /\ tree_in x r.
Proof.
  intros ((F & Wf) & Lv). destruct (@cells_eta _ _ _ Wf _ _ _ _ _ eq_refl) as (E & N & A & B). splits; auto.
  - apply Lv. cbn. rewrite in_app_iff. cbn. auto.
  - split; auto. intros y I. apply Lv. cbn. rewrite in_app_iff. auto.
  - split; auto. intros y I. apply Lv. cbn. rewrite in_app_iff. cbn. auto.
Qed.

Notation fst_or := (fun (p : node -> bool) (l : list node) (y : node) =>
  match List.find p l with Some z => z | None => y end).

(** ** Lookup *)
Lemma test_spec {B} (p : K -> bool) x (k : bool -> OM B) P' :
  live b x -> Ro (k (p (kx x))) P' -> Ro (bind (test throws key L p x) k) P'.
Proof.
  intros Lx H. unfold test. apply Ro_bind with (P := eq (p (kx x))).
  - apply Ro_val; auto. apply Ro_ucall1. reflexivity.
  - intros a <-. exact H.
Qed.

Lemma descend_spec p t : forall fuel q y, tree_in q t -> mono (fun x => p (kx x)) (inorder t) ->
  size t < fuel ->
  Ro (descend throws key L fuel p (rootp t) y) (fun r => r = fst_or (fun x => p (kx x)) (inorder t) y).
Proof.
  induction t as [|c n l IHl x r IHr]; intros fuel q y Ti Mo Fu;
    (destruct fuel as [|f]; [lia|]); cbn [descend rootp].
  - now apply Ro_ret.
  - apply tree_in_T in Ti. destruct Ti as (E & N & Lx & Tl & Tr).
    apply Nat.eqb_neq in N. rewrite N. cbn [inorder] in Mo |- *. cbn [size] in Fu.
    apply mono_mid in Mo. destruct Mo as (Ml & Mr & F1 & F2).
    apply test_spec; auto. destruct (p (kx x)) eqn:Px.
    + eapply Ro_rd; [exact E|]. cbn [cl]. eapply Ro_conseq; [apply (IHl f x); auto; lia|].
      intros a ->. rewrite find_all by (constructor; auto). cbn [hd_error].
      destruct (List.find _ (inorder l)); auto.
    + eapply Ro_rd; [exact E|]. cbn [cr]. eapply Ro_conseq; [apply (IHr f x); auto; lia|].
      intros a ->. rewrite find_mid by auto. now rewrite Px.
Qed.

Lemma eqr_spec below above t : forall fuel q y, tree_in q t ->
  cut (fun x => below (kx x)) (fun x => above (kx x)) (inorder t) ->
  size t < fuel -> size t < cget L s + 4 ->
  Ro (eqr_loop throws key L fuel below above (rootp t) y)
     (fun r => r = (fst_or (fun x => negb (below (kx x))) (inorder t) y,
                    fst_or (fun x => above (kx x)) (inorder t) y)).
Proof.
  induction t as [|c n l IHl x r IHr]; intros fuel q y Ti [Mb Ma Ex] Fu Fs;
    (destruct fuel as [|f]; [lia|]); cbn [eqr_loop rootp].
  - now apply Ro_ret.
  - apply tree_in_T in Ti. destruct Ti as (E & N & Lx & Tl & Tr).
    apply Nat.eqb_neq in N. rewrite N. cbn [inorder] in Mb, Ma, Ex |- *. cbn [size] in Fu, Fs.
    assert (Exl : forall y, In y (inorder l) -> below (kx y) = true -> above (kx y) = false)
      by (intros; apply Ex; auto; rewrite in_app_iff; auto).
    assert (Exr : forall y, In y (inorder r) -> below (kx y) = true -> above (kx y) = false)
      by (intros; apply Ex; auto; rewrite in_app_iff; cbn; auto).
    assert (Exx : below (kx x) = true -> above (kx x) = false)
      by (intros; apply Ex; auto; rewrite in_app_iff; cbn; auto).
    apply mono_mid in Mb. destruct Mb as (Mbl & Mbr & B1 & B2).
    apply mono_mid in Ma. destruct Ma as (Mal & Mar & A1 & A2).
    apply test_spec; auto. destruct (below (kx x)) eqn:Bx; cbn [negb] in *.
    + eapply Ro_rd; [exact E|]. cbn [cr]. eapply Ro_conseq; [apply (IHr f x); auto; [split; auto|lia|lia]|].
      intros a ->. rewrite !find_mid by auto. rewrite Bx, Exx by auto. reflexivity.
    + apply test_spec; auto. destruct (above (kx x)) eqn:Ax.
      * eapply Ro_rd; [exact E|]. cbn [cl]. eapply Ro_conseq; [apply (IHl f x); auto; [split; auto|lia|lia]|].
        intros a ->. rewrite !find_all by (constructor; rewrite ?Bx; auto). cbn [hd_error].
        destruct (List.find _ (inorder l)); destruct (List.find _ (inorder l)); auto.
      * eapply Ro_rd; [exact E|]. cbn [cl]. unfold lower_bound_at. eapply Ro_bind.
        { apply Ro_bound. eapply descend_spec; eauto. lia. }
        intros a ->. eapply Ro_rd; [exact E|]. cbn [cr]. unfold upper_bound_at. eapply Ro_bind.
        { apply Ro_bound. eapply descend_spec; eauto. lia. }
        intros a' ->. apply Ro_ret. f_equal.
        -- rewrite !find_all by (constructor; rewrite ?Bx; auto). cbn [hd_error].
           destruct (List.find _ (inorder l)); auto.
        -- rewrite find_mid by auto. now rewrite Ax.
Qed.

(** the whole index *)
Variable t : OrdTree.tree.
Variable hs : nat.
Variable F : list (node * cell).
Hypothesis TA : tat hd hs h t F.
Hypothesis LV : forall x, In x (inorder t) -> live b x.
Hypothesis SZ : size t <= cget L s.
Notation l := (inorder t).

Lemma all_in : tree_in hd t.
Proof.
  split; auto. exists ((hd, hcell hd hs t) :: F). unfold tat in TA. eapply wfc_perm; [exact TA|]. cperm.
Qed.
Lemma Ro_root {B} (k : node -> OM B) P : Ro (k (rootp t)) P -> Ro (bind (ownM (gp hd)) k) P.
Proof.
  intros H. eapply (@Ro_rd _ _ cp hd (hcell hd hs t)); [|exact H].
  eapply wfc_get; [exact TA|]. now left.
Qed.
Lemma Ro_leftmost {B} (k : node -> OM B) P : Ro (k (List.hd hd l)) P -> Ro (bind (ownM (gl hd)) k) P.
Proof.
  intros H. eapply (@Ro_rd _ _ cl hd (hcell hd hs t)); [|exact H].
  eapply wfc_get; [exact TA|]. now left.
Qed.
Lemma Ro_rightmost {B} (k : node -> OM B) P : Ro (k (last l hd)) P -> Ro (bind (ownM (gr hd)) k) P.
Proof.
  intros H. eapply (@Ro_rd _ _ cr hd (hcell hd hs t)); [|exact H].
  eapply wfc_get; [exact TA|]. now left.
Qed.

Lemma begin_ok : Ro (o_begin hd L) (fun r => r = List.hd hd l).
Proof.
  apply Ro_own1. unfold wp, gl, rd. assert (E : h hd = Some (hcell hd hs t)).
  { eapply wfc_get; [exact TA|]. now left. }
  now rewrite E.
Qed.

Theorem lower_bound_ok below : mono (fun x => negb (below (kx x))) l ->
  Ro (lower_bound throws key hd L below) (fun r => r = first hd (fun x => negb (below (kx x))) l).
Proof.
  intros Mo. unfold lower_bound, lower_bound_at. apply Ro_root, Ro_bound.
  eapply descend_spec; [apply all_in|auto|lia].
Qed.
Theorem upper_bound_ok above : mono (fun x => above (kx x)) l ->
  Ro (upper_bound throws key hd L above) (fun r => r = first hd (fun x => above (kx x)) l).
Proof.
  intros Mo. unfold upper_bound, upper_bound_at. apply Ro_root, Ro_bound.
  eapply descend_spec; [apply all_in|auto|lia].
Qed.
Theorem equal_range_ok below above :
  cut (fun x => below (kx x)) (fun x => above (kx x)) l ->
  Ro (equal_range throws key hd L below above)
     (fun r => r = (first hd (fun x => negb (below (kx x))) l, first hd (fun x => above (kx x)) l)).
Proof.
  intros C. unfold equal_range. apply Ro_root, Ro_bound.
  eapply eqr_spec; [apply all_in|auto|lia|lia].
Qed.

Lemma hd_notin : ~ In hd l.
Proof. exact (proj1 (proj2 (tat_nodup_in TA))). Qed.
Lemma nd_l : NoDup l.
Proof. exact (proj1 (tat_nodup_in TA)). Qed.

Theorem find_ok below above :
  cut (fun x => below (kx x)) (fun x => above (kx x)) l ->
  Ro (OrdIdx.find throws key hd L below above)
     (fun r => r = first hd (fun x => negb (below (kx x)) && negb (above (kx x))) l).
Proof.
  intros [Mb Ma Ex]. unfold OrdIdx.find. apply Ro_root, Ro_bound. eapply Ro_bind.
  { eapply descend_spec; [apply all_in|auto|lia]. }
  intros y ->. unfold first. set (p := fun x => negb (below (kx x))) in *.
  destruct (List.find p l) as [y|] eqn:Fi.
  - assert (Iy : In y l) by (eapply find_some; eauto).
    destruct (Nat.eqb_spec y hd) as [->|N]; [now apply hd_notin in Iy|].
    apply test_spec; auto. apply Ro_ret.
    apply in_split in Iy. destruct Iy as (l1 & l2 & E). rewrite E in *.
    assert (N1 : Forall (fun z => p z = false) l1).
    { assert (ND := nd_l). rewrite E in ND. clear - Fi ND.
      induction l1 as [|a l1 IH]; constructor; cbn in Fi.
      - destruct (p a) eqn:Pa; auto. injection Fi as ->. exfalso. inversion ND as [|? ? H _]. apply H.
        rewrite in_app_iff. cbn. auto.
      - apply IH; [destruct (p a) eqn:Pa; auto|now inversion ND].
        injection Fi as ->. exfalso. inversion ND as [|? ? H _]. apply H. rewrite in_app_iff. cbn. auto. }
    assert (Py : p y = true) by (eapply find_some in Fi; tauto).
    rewrite find_mid.
    2:{ eapply Forall_impl; [|exact N1]. unfold p. cbn. intros z ->. reflexivity. }
    unfold p in Py. rewrite Py. cbn [andb].
    apply mono_mid in Ma. destruct Ma as (_ & _ & _ & A2).
    destruct (above (kx y)) eqn:Ay; cbn [negb]; auto.
    rewrite find_none_all; auto. eapply Forall_impl; [|apply A2; auto]. cbn. intros z ->. apply andb_false_r.
  - rewrite Nat.eqb_refl. apply Ro_ret. rewrite find_none_all; auto.
    apply Forall_forall. intros z I. assert (Pz := find_none _ _ Fi z I). unfold p in Pz. rewrite Pz. reflexivity.
Qed.

Theorem contains_ok below above :
  cut (fun x => below (kx x)) (fun x => above (kx x)) l ->
  Ro (contains throws key hd L below above)
     (fun r => r = existsb (fun x => negb (below (kx x)) && negb (above (kx x))) l).
Proof.
  intros C. unfold contains. eapply Ro_bind; [now apply find_ok|]. intros y ->. apply Ro_ret.
  unfold first. set (p := fun x => _). assert (H := hd_notin). clear - H. induction l as [|a m IH]; cbn; [now rewrite Nat.eqb_refl|].
  destruct (p a) eqn:Pa; cbn.
  - apply Bool.negb_true_iff. apply Nat.eqb_neq. intros ->. apply H. now left.
  - apply IH. intros I. apply H. now right.
Qed.

(** ** Iteration *)
Lemma next_ok l1 x l2 : l = l1 ++ x :: l2 -> Ro (o_next L x) (fun r => r = List.hd hd l2).
Proof.
  intros E. unfold o_next. apply Ro_tree1. apply increment_spec with (hs := hs) (1 := TA) (2 := E). lia.
Qed.
Lemma prev_ok l1 x l2 : colr t = Black -> l = l1 ++ x :: l2 -> l1 <> [] ->
  Ro (o_prev L x) (fun r => r = last l1 hd).
Proof.
  intros CB E NE. unfold o_prev. apply Ro_tree1.
  eapply decrement_spec with (hs := hs) (1 := TA); eauto. lia.
Qed.
Lemma prev_end_ok : l <> [] -> Ro (o_prev L hd) (fun r => r = last l hd).
Proof.
  intros NE. unfold o_prev. apply Ro_tree1.
  eapply decrement_end_spec with (hs := hs) (1 := TA); eauto. now destruct t.
Qed.

Lemma distance_ok : forall m l1 fuel l2, l = l1 ++ m ++ l2 -> length m < fuel ->
  Ro (distance L fuel (List.hd hd (m ++ l2)) (List.hd hd l2)) (fun r => r = length m).
Proof.
  induction m as [|x m IH]; intros l1 fuel l2 E Fu; (destruct fuel as [|f]; [cbn in Fu; lia|]); cbn [distance].
  - cbn [app]. rewrite Nat.eqb_refl. now apply Ro_ret.
  - cbn [app List.hd]. assert (ND := nd_l). assert (HN := hd_notin). rewrite E in ND, HN.
    destruct (Nat.eqb_spec x (List.hd hd l2)) as [->|N].
    { exfalso. destruct l2 as [|y l2]; cbn in *.
      - apply HN. rewrite in_app_iff. cbn. auto.
      - apply NoDup_app_iff in ND. destruct ND as (_ & ND & _). inversion ND as [|? ? N _].
        apply N. rewrite in_app_iff. cbn. auto. }
    eapply Ro_bind; [apply (@next_ok l1 x (m ++ l2)); exact E|]. intros ? ->.
    eapply Ro_bind; [apply (IH (l1 ++ [x])); [rewrite E, <- app_assoc; reflexivity|cbn in Fu; lia]|].
    intros ? ->. now apply Ro_ret.
Qed.

Theorem count_ok below above :
  cut (fun x => below (kx x)) (fun x => above (kx x)) l ->
  Ro (count throws key hd L below above)
     (fun r => r = num (fun x => negb (below (kx x)) && negb (above (kx x))) l).
Proof.
  intros C. unfold count. eapply Ro_bind; [now apply equal_range_ok|]. intros p ->. cbn [fst snd].
  apply Ro_bound. destruct (cut_split C) as (m1 & m2 & m3 & E & F1 & F2 & F3 & F4 & F5).
  eapply Ro_conseq.
  - unfold first. rewrite E. rewrite find_split.
    2:{ eapply Forall_impl; [|exact F1]. cbn. now intros y ->. }
    2:{ eapply Forall_impl; [|exact F5]. cbn. now intros y ->. }
    rewrite (app_assoc m1). rewrite find_split by auto.
    replace (match hd_error (m2 ++ m3) with Some z => z | None => hd end) with (List.hd hd (m2 ++ m3))
      by (now destruct (m2 ++ m3)).
    replace (match hd_error m3 with Some z => z | None => hd end) with (List.hd hd m3) by (now destruct m3).
    apply (@distance_ok m2 m1); auto.
    assert (SZ' := SZ). rewrite size_inorder, E, !app_length in SZ'. lia.
  - intros a ->. unfold num. rewrite E, !filter_app, !app_length.
    rewrite (@filter_none _ _ m1), (@filter_none _ _ m3), (@filter_all _ _ m2); cbn; auto.
    + eapply Forall_impl; [|exact F2]. cbn. now intros y (-> & ->).
    + eapply Forall_impl; [|exact F3]. cbn. intros y ->. apply andb_false_r.
    + eapply Forall_impl; [|exact F1]. cbn. now intros y ->.
Qed.

(** ** range *)
Lemma range_loop_spec lower upper t0 : forall fuel q y, tree_in q t0 ->
  mono (fun x => lower (kx x)) (inorder t0) -> mono (fun x => negb (upper (kx x))) (inorder t0) ->
  size t0 < fuel -> size t0 < cget L s + 4 ->
  Ro (range_loop throws key L fuel lower upper (rootp t0) y)
     (fun r => r = (fst_or (fun x => lower (kx x)) (inorder t0) y,
                    fst_or (fun x => lower (kx x) && negb (upper (kx x))) (inorder t0) y)).
Proof.
  induction t0 as [|c n lt0 IHl x r IHr]; intros fuel q y Ti Mb Ma Fu Fs;
    (destruct fuel as [|f]; [lia|]); cbn [range_loop rootp].
  - now apply Ro_ret.
  - apply tree_in_T in Ti. destruct Ti as (E & N & Lx & Tl & Tr).
    apply Nat.eqb_neq in N. rewrite N. cbn [inorder] in Mb, Ma |- *. cbn [size] in Fu, Fs.
    apply mono_mid in Mb. destruct Mb as (Mbl & Mbr & B1 & B2).
    apply mono_mid in Ma. destruct Ma as (Mal & Mar & A1 & A2).
    apply test_spec; auto. destruct (lower (kx x)) eqn:Bx; cbn [negb] in *.
    + specialize (B2 eq_refl). apply test_spec; auto. destruct (upper (kx x)) eqn:Ax; cbn [negb] in *.
      * specialize (A1 eq_refl). eapply Ro_rd; [exact E|]. cbn [cl]. unfold lower_range. eapply Ro_bind.
        { apply Ro_bound. eapply descend_spec; eauto. lia. }
        intros a ->. eapply Ro_rd; [exact E|]. cbn [cr]. unfold upper_range. eapply Ro_bind.
        { apply Ro_bound. eapply descend_spec; eauto. lia. }
        intros a' ->. apply Ro_ret. f_equal.
        -- rewrite !find_all by (constructor; rewrite ?Bx; auto). cbn [hd_error].
           destruct (List.find _ (inorder lt0)); auto.
        -- rewrite find_mid.
           2:{ eapply Forall_impl; [|exact A1]. cbn. intros z ->. apply andb_false_r. }
           rewrite Ax, andb_false_r. clear - B2. induction B2 as [|z m H _ IH]; cbn; auto. rewrite H. cbn.
           destruct (negb (upper (kx z))); auto.
      * specialize (A2 eq_refl).
        eapply Ro_rd; [exact E|]. cbn [cl]. eapply Ro_conseq; [apply (IHl f x); auto; lia|].
        intros a ->. rewrite !find_all.
        2:{ constructor; [now rewrite Bx, Ax|]. rewrite Forall_forall in *. intros z I. now rewrite B2, A2. }
        2:{ constructor; auto. }
        cbn [hd_error]. destruct (List.find _ (inorder lt0)); destruct (List.find _ (inorder lt0)); auto.
    + specialize (B1 eq_refl). eapply Ro_rd; [exact E|]. cbn [cr]. eapply Ro_conseq; [apply (IHr f x); auto; lia|].
      intros a ->. rewrite !find_mid; auto.
      2:{ eapply Forall_impl; [|exact B1]. cbn. intros z ->. reflexivity. }
      rewrite Bx. reflexivity.
Qed.

(** bounds of a range; an unbounded end is satisfied by everything *)
Definition lo_test (lower : option (K -> bool)) (x : node) : bool :=
  match lower with Some p => p (kx x) | None => true end.
Definition up_test (upper : option (K -> bool)) (x : node) : bool :=
  match upper with Some p => p (kx x) | None => true end.

(** the elements of the range end where an element not satisfying [upper] comes after one
    satisfying [lower]; if no element satisfies both, both positions are the first element satisfying
    [lower] *)
Theorem range_ok lower upper :
  mono (lo_test lower) l -> mono (fun x => negb (up_test upper x)) l ->
  Ro (range throws key hd L lower upper)
     (fun r => r = (first hd (lo_test lower) l, first hd (fun x => lo_test lower x && negb (up_test upper x)) l)).
Proof.
  intros Mb Ma. unfold range. apply Ro_root, Ro_bound.
  destruct lower as [lower|], upper as [upper|]; cbn [lo_test up_test] in *.
  - eapply range_loop_spec; eauto; [apply all_in|lia|lia].
  - unfold lower_range. eapply Ro_bind.
    { apply Ro_bound. eapply descend_spec; [apply all_in|exact Mb|lia]. }
    intros a ->. apply Ro_ret. unfold first, lo_test, up_test. f_equal. cbn [negb].
    rewrite find_none_all; auto. apply Forall_forall. intros. apply andb_false_r.
  - apply Ro_bind with (P := fun r => r = List.hd hd l).
    { apply begin_ok. }
    intros a ->. unfold upper_range. eapply Ro_bind.
    { apply Ro_bound. eapply descend_spec; [apply all_in|exact Ma|lia]. }
    intros a ->. apply Ro_ret. unfold first, lo_test, up_test. f_equal. now destruct l.
  - apply Ro_bind with (P := fun r => r = List.hd hd l).
    { apply begin_ok. }
    intros a ->. apply Ro_ret. unfold first, lo_test, up_test. f_equal.
    + now destruct l.
    + cbn [negb]. rewrite find_none_all; auto. now apply Forall_forall.
Qed.
End State.
End Look.
