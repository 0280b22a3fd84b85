(** Lemmas on memory and lenses; the bottom layer meets its specification. *)
From Verif Require Import Prelude Layer.
Set Implicit Arguments.

Lemma wp_lens {S T A} (g : S -> T) p (m : M T A) (Q : A -> S -> Prop) E s :
  wp m (fun a t => Q a (p t s)) (fun t => E (p t s)) (g s) -> wp (lensM g p m) Q E s.
Proof. unfold wp, lensM. destruct (m (g s)); auto. Qed.

Lemma wp_own {T S A} (m : M T A) (Q : A -> T * S -> Prop) E t s :
  wp m (fun a t' => Q a (t', s)) (fun t' => E (t', s)) t -> wp (ownM m) Q E (t, s).
Proof. intros H. apply wp_lens. exact H. Qed.
Lemma wp_sup {T S A} (m : M S A) (Q : A -> T * S -> Prop) E t s :
  wp m (fun a s' => Q a (t, s')) (fun s' => E (t, s')) s -> wp (supM m) Q E (t, s).
Proof. intros H. apply wp_lens. exact H. Qed.

Lemma quiet_refl th n : quiet th n n.
Proof. split; [lia|]. intros; lia. Qed.
Lemma quiet_trans th n m p : quiet th n m -> quiet th m p -> quiet th n p.
Proof.
  intros [A B] [C D]. split; [lia|]. intros i I. destruct (Nat.lt_ge_cases i m); [apply B|apply D]; lia.
Qed.
Lemma quiet_S th n : th n = false -> quiet th n (S n).
Proof. intros H. split; [lia|]. intros i I. replace i with n by lia. exact H. Qed.
Lemma blown_trans th n m p : quiet th n m -> blown th m p -> blown th n p.
Proof. intros A (i & B & C & D). exists i. splits; auto. eapply quiet_trans; eauto. Qed.
Lemma blown_S th n : th n = true -> blown th n (S n).
Proof. intros H. exists n. splits; auto. apply quiet_refl. Qed.

Section Mem.
Variable V : Type.
Implicit Type m : list (node * option V).

Lemma look_in m x o : look m x = Some o -> In (x, o) m.
Proof.
  induction m as [|(y, p) m IH]; cbn; [easy|]. destruct (Nat.eqb_spec x y).
  - intros [= ->]. subst. auto.
  - auto.
Qed.
Lemma look_none m x : look m x = None <-> ~ In x (map fst m).
Proof.
  induction m as [|(y, p) m IH]; cbn; [tauto|]. destruct (Nat.eqb_spec x y).
  - subst. split; [easy|intros []; auto].
  - rewrite IH. split; [intros H [E|E]; congruence || tauto|tauto].
Qed.
Lemma look_some m x : In x (map fst m) -> exists o, look m x = Some o.
Proof.
  intros I. destruct (look m x) eqn:E; eauto. apply look_none in E. easy.
Qed.
Lemma look_mset m x o y : look (mset m x o) y = if y =? x then match look m x with None => None | Some _ => Some o end else look m y.
Proof.
  unfold mset. induction m as [|(z, p) m IH]; cbn; [now destruct (y =? x)|].
  destruct (Nat.eqb_spec x z) as [->|N]; cbn.
  - rewrite IH. destruct (Nat.eqb_spec y z); auto.
  - rewrite IH. destruct (Nat.eqb_spec y z) as [->|M]; auto.
    destruct (Nat.eqb_spec z x); congruence.
Qed.
Lemma look_mdel m x y : look (mdel m x) y = if y =? x then None else look m y.
Proof.
  unfold mdel. induction m as [|(z, p) m IH]; cbn; [now destruct (y =? x)|].
  destruct (Nat.eqb_spec x z) as [->|N]; cbn.
  - rewrite IH. destruct (Nat.eqb_spec y z); auto.
  - rewrite IH. destruct (Nat.eqb_spec y z) as [->|M]; auto.
    destruct (Nat.eqb_spec z x); congruence.
Qed.
Lemma fst_mset m x o : map fst (mset m x o) = map fst m.
Proof.
  unfold mset. rewrite map_map. apply map_ext. intros (y, p). cbn. now destruct (x =? y).
Qed.
Lemma mdel_notin m x : ~ In x (map fst m) -> mdel m x = m.
Proof.
  unfold mdel. induction m as [|(z, p) m IH]; cbn; [easy|]. intros N.
  destruct (Nat.eqb_spec x z); [exfalso; auto|]. cbn. now rewrite IH by auto.
Qed.
Lemma mset_notin m x o : ~ In x (map fst m) -> mset m x o = m.
Proof.
  unfold mset. induction m as [|(z, p) m IH]; cbn; [easy|]. intros N.
  destruct (Nat.eqb_spec x z); [exfalso; auto|]. now rewrite IH by auto.
Qed.
Lemma mdel_mset m x o : mdel (mset m x o) x = mdel m x.
Proof.
  unfold mdel, mset. induction m as [|(z, p) m IH]; cbn; [easy|].
  destruct (Nat.eqb_spec x z) as [->|N]; cbn.
  - now rewrite Nat.eqb_refl.
  - destruct (Nat.eqb_spec x z); [easy|]. cbn. now rewrite IH.
Qed.
Lemma mset_mset m x o o' : mset (mset m x o) x o' = mset m x o'.
Proof.
  unfold mset. rewrite map_map. apply map_ext. intros (y, p). cbn.
  destruct (Nat.eqb_spec x y); cbn; [subst; now rewrite Nat.eqb_refl|].
  now destruct (Nat.eqb_spec x y).
Qed.
Lemma mset_id m x o : NoDup (map fst m) -> look m x = Some o -> mset m x o = m.
Proof.
  intros ND. unfold mset. induction m as [|(y, p) m IH]; cbn; [easy|].
  cbn in ND. apply NoDup_cons_iff in ND. destruct ND as (N & ND).
  destruct (Nat.eqb_spec x y) as [->|].
  - intros [= ->]. f_equal. now apply mset_notin.
  - intros L. f_equal. auto.
Qed.
Lemma fst_mdel m x : map fst (mdel m x) = remove Nat.eq_dec x (map fst m).
Proof.
  unfold mdel. induction m as [|(y, p) m IH]; cbn; [easy|].
  destruct (Nat.eqb_spec x y); cbn; destruct (Nat.eq_dec x y); try easy. now rewrite IH.
Qed.
Lemma remove_nodup x (l : list node) : NoDup l -> NoDup (remove Nat.eq_dec x l).
Proof.
  induction l as [|y l IH]; cbn; auto. intros H. apply NoDup_cons_iff in H. destruct H.
  destruct (Nat.eq_dec x y); auto. constructor; auto. intros I. apply in_remove in I. tauto.
Qed.
Lemma remove_app1 x (l1 l2 : list node) :
  remove Nat.eq_dec x (l1 ++ l2) = remove Nat.eq_dec x l1 ++ remove Nat.eq_dec x l2.
Proof. apply remove_app. Qed.
Lemma remove_mid x (l1 l2 : list node) : NoDup (l1 ++ x :: l2) -> remove Nat.eq_dec x (l1 ++ x :: l2) = l1 ++ l2.
Proof.
  intros ND. apply NoDup_remove in ND. destruct ND as (_ & N). rewrite in_app_iff in N.
  rewrite remove_app. cbn. destruct (Nat.eq_dec x x); [|easy].
  rewrite !notin_remove by tauto. reflexivity.
Qed.
Lemma perm_remove x (l l' : list node) : Permutation l l' ->
  Permutation (remove Nat.eq_dec x l) (remove Nat.eq_dec x l').
Proof.
  induction 1 as [|y l l' P IH|y z l|]; cbn; auto.
  - destruct (Nat.eq_dec x y); auto.
  - destruct (Nat.eq_dec x y), (Nat.eq_dec x z); auto. constructor.
  - etransitivity; eauto.
Qed.
Lemma length_remove x (l : list node) : NoDup l -> In x l -> S (length (remove Nat.eq_dec x l)) = length l.
Proof.
  intros ND I. apply in_split in I. destruct I as (l1 & l2 & ->).
  rewrite remove_mid by auto. rewrite !app_length. cbn. lia.
Qed.
End Mem.

Section B.
Variable V : Type.
Variable throws : nat -> bool.
Variable pick : list node -> node.
Variable dv : V.
Hypothesis pick_ok : forall l, ~ In (pick l) (null :: l).

Notation bst := (bst V).
Notation live := (@live V).
Notation val := (val dv).

(** ** memory without some nodes *)
Lemma filter_filter {A} (p q : A -> bool) (l : list A) : filter p (filter q l) = filter (fun x => q x && p x) l.
Proof.
  induction l as [|x l IH]; cbn; auto. destruct (q x); cbn; [|auto]. destruct (p x); now rewrite IH.
Qed.
Definition without (l : list node) (m : list (node * option V)) : list (node * option V) :=
  filter (fun p => negb (existsb (Nat.eqb (fst p)) l)) m.
Lemma without_app l1 l2 m : without l2 (without l1 m) = without (l1 ++ l2) m.
Proof.
  unfold without. rewrite filter_filter. apply filter_ext. intros (y, o). cbn.
  now rewrite existsb_app, negb_orb.
Qed.
Lemma without_one x m : mdel m x = without [x] m.
Proof.
  unfold without, mdel. apply filter_ext. intros (y, o). cbn. now rewrite orb_false_r, Nat.eqb_sym.
Qed.
Lemma without_cons x l m : without (x :: l) m = without l (mdel m x).
Proof. now rewrite without_one, without_app. Qed.
Lemma without_nil m : without [] m = m.
Proof. unfold without. induction m as [|p m IH]; cbn; [easy|]. f_equal. exact IH. Qed.
Lemma without_perm l l' m : Permutation l l' -> without l m = without l' m.
Proof.
  intros P. unfold without. apply filter_ext. intros (y, o). cbn. f_equal.
  apply Bool.eq_iff_eq_true. rewrite !existsb_exists. split; intros (z & I & E); exists z; split; auto.
  - eapply Permutation_in; eauto.
  - symmetry in P. eapply Permutation_in; eauto.
Qed.
Lemma look_without l m x : ~ In x l -> look (without l m) x = look m x.
Proof.
  intros N. unfold without. induction m as [|(y, o) m IH]; cbn; [easy|].
  destruct (existsb (Nat.eqb y) l) eqn:E; cbn.
  - destruct (Nat.eqb_spec x y) as [->|]; auto. exfalso. apply N. apply existsb_exists in E.
    destruct E as (z & I & Ez). apply Nat.eqb_eq in Ez. now subst.
  - now rewrite IH.
Qed.


Lemma val_mem (b b' : bst) x : mem b = mem b' -> val b x = val b' x.
Proof. unfold Layer.val. now intros ->. Qed.
Lemma live_mem (b b' : bst) x : mem b = mem b' -> live b x -> live b' x.
Proof. unfold Layer.live. now intros ->. Qed.
Lemma live_val (b : bst) x : live b x -> look (mem b) x = Some (Some (val b x)).
Proof. unfold Layer.live, Layer.val. intros (v & ->). reflexivity. Qed.

Lemma wp_tick {A} (k : unit -> BM V A) (b : bst) (Q : A -> bst -> Prop) E :
  (throws (tk b) = false -> wp (k tt) Q E (mkB (mem b) (S (tk b)))) ->
  (throws (tk b) = true -> E (mkB (mem b) (S (tk b)))) ->
  wp (bind (tick throws) k) Q E b.
Proof.
  intros H1 H2. unfold wp, bind, tick. destruct (throws (tk b)); [auto|]. now apply H1.
Qed.

Lemma inv_mem hd (b b' : bst) ls lk : mem b = mem b' -> inv hd b ls lk -> inv hd b' ls lk.
Proof.
  intros E [A B C D F]. split; auto.
  - intros x I. eapply live_mem; eauto.
  - now rewrite <- E.
  - now rewrite <- E.
Qed.
Lemma inv_tl hd (b : bst) l ls lk : inv hd b (l :: ls) lk -> inv hd b ls lk.
Proof. intros [A B C D F]. split; auto. now inversion B. Qed.
Lemma inv_hd hd (b : bst) l ls lk : inv hd b (l :: ls) lk -> Permutation l lk.
Proof. intros [A B C D F]. now inversion B. Qed.

(** ** nodes being inserted *)
Lemma inserted_ok hd (b b' : bst) ls lk (Sp : Spec V) (a : AV Sp) var x v x' :
  inv hd b ls lk -> ready Sp b var x v a lk -> inserted pick b b' var x v x' ->
  (forall y, In y lk -> val b' y = val b y) /\ val b' x' = v /\
  ~ In x' (null :: hd :: lk).
Proof.
  intros I R N. destruct I as [I1 I2 I3 I4 I5]. destruct var; cbn in R, N; destruct N as (-> & N).
  - set (p := pick (map fst (mem b))) in *. assert (NP := @pick_ok (map fst (mem b))). fold p in NP.
    assert (Hp : forall y o, look (mem b) y = Some o -> y <> p).
    { intros y o Lk E. subst y. apply NP. right. apply look_in in Lk. apply (in_map fst) in Lk. exact Lk. }
    splits.
    + intros y Iy. unfold Layer.val. rewrite N. cbn. destruct (I3 y Iy) as (w & Lk).
      apply Hp in Lk. apply Nat.eqb_neq in Lk. now rewrite Lk.
    + unfold Layer.val. rewrite N. cbn. now rewrite Nat.eqb_refl.
    + intros [E|[E|E]].
      * apply NP. now left.
      * now apply Hp in I5.
      * destruct (I3 p E) as (w & Lk). now apply Hp in Lk.
  - destruct R as (Lk & Nx & _). splits.
    + intros y _. now apply val_mem.
    + unfold Layer.val. now rewrite N, Lk.
    + intros [E|[E|E]]; [|congruence|easy]. subst x. apply look_in, (in_map fst) in Lk.
      apply NoDup_cons_iff in I4. now apply (proj1 I4).
  - destruct R as (Lk & Nx & _). splits.
    + intros y _. now apply val_mem.
    + unfold Layer.val. now rewrite N, Lk.
    + intros [E|[E|E]]; [|congruence|easy]. subst x. apply look_in, (in_map fst) in Lk.
      apply NoDup_cons_iff in I4. now apply (proj1 I4).
Qed.
(** a node not yet in the container is not one of its elements *)
Lemma ready_fresh hd (b : bst) ls lk (Sp : Spec V) (a : AV Sp) var x v y :
  inv hd b ls lk -> ready Sp b var x v a lk -> In y lk -> y <> x.
Proof.
  intros I R Iy ->. destruct var; cbn in R.
  - subst x. destruct (i_live I _ Iy) as (w & Lk). assert (N := i_mem I). apply NoDup_cons_iff in N.
    apply (proj1 N). apply look_in, (in_map fst) in Lk. exact Lk.
  - tauto.
  - tauto.
Qed.

(** ** worlds *)
Record WOK (W : World V) (AW : Type) (wrep : WS W -> AW -> Prop) (wready : node -> AW -> Prop)
           (wrem : node -> AW -> AW) : Prop := mkWOK {
  w_bb : forall b w, wget W (wset W b w) = b;
  w_gs : forall w, wset W (wget W w) w = w;
  w_ss : forall b b' w, wset W b (wset W b' w) = wset W b w;
  w_rep : forall b w a, wrep w a -> wrep (wset W b w) a;
  w_take : forall w a x, wrep w a -> wready x a ->
    wp (take W x) (fun _ w' => wrep w' (wrem x a) /\ wget W w' = wget W w) (fun _ => False) w }.

Lemma nearly_ext (Sp : Spec V) vl vl' x a : nearly Sp vl x a -> (forall y, vl y = vl' y) -> nearly Sp vl' x a.
Proof. intros (v0 & E & A) H. exists v0. split; auto. intros y N. rewrite <- H. auto. Qed.
Lemma nearly_ok (Sp : Spec V) vl x a : aok Sp vl a -> nearly Sp vl x a.
Proof. intros A. exists vl. auto. Qed.
Definition base_spec (AW : Type) (wready : node -> AW -> Prop) (wrem : node -> AW -> AW) : Spec V :=
  @mkSpec V AW (fun _ => []) (fun _ _ => True) (fun _ => eq) (fun _ a => a)
    (fun var _ _ a x a' => match var with Transfer => a' = wrem x a | _ => a' = a end)
    (fun _ _ a a' => a' = a) (fun _ _ => False)
    (fun var x a => match var with Transfer => wready x a | _ => True end).

Lemma mem_world_ok : WOK (mem_world V) (fun _ (_ : unit) => True) (fun _ _ => False) (fun _ a => a).
Proof. split; cbn; easy. Qed.

Lemma base_ok hd W AW wrep wready wrem : @WOK W AW wrep wready wrem ->
  OK throws pick dv hd (base throws pick W) (base_spec wready wrem)
     (fun s a => wrep (snd s) a) (fun s => exists a, wrep (snd s) a).
Proof.
  intros OW. split; cbn -[allocate_node construct_value assign]; auto.
  - intros b s. apply (w_bb OW).
  - intros (n, w). cbn. now rewrite (w_gs OW).
  - intros b b' (n, w). cbn. now rewrite (w_ss OW).
  - intros b s a R. now apply (w_rep OW).
  - intros b s (a & R). exists a. now apply (w_rep OW).
  - eauto.
  - (* insert *)
    intros (n, w) a lk v hint x var R I C _ H Rd. cbn [fst snd] in *. destruct var.
    + apply wp_lens. cbn [fst snd]. unfold allocate_node. unfold wp at 1, bind at 1.
      unfold tick, bind. destruct (throws (tk (wget W w))) eqn:T.
      * exists a. rewrite ?(w_bb OW). splits; auto; [now apply (w_rep OW)|now apply blown_S].
      * cbn. set (p := pick (map fst (mem (wget W w)))).
        assert (NP := @pick_ok (map fst (mem (wget W w)))). fold p in NP. cbn in NP.
        unfold construct_value, bind, tick, try_catch. cbn. destruct (throws (S (tk (wget W w)))) eqn:T2.
        -- unfold deallocate_node. cbn. rewrite Nat.eqb_refl. cbn.
           exists a. rewrite ?(w_bb OW). cbn. splits; auto.
           ++ now apply (w_rep OW).
           ++ unfold mdel. cbn. rewrite ?Nat.eqb_refl. cbn. apply mdel_notin. tauto.
           ++ exists (S (tk (wget W w))). splits; auto. now apply quiet_S.
        -- cbn. rewrite ?Nat.eqb_refl. cbn. exists a. rewrite ?(w_bb OW). cbn. splits; auto.
           ++ now apply (w_rep OW).
           ++ eapply quiet_trans; apply quiet_S; auto.
           ++ left. splits; auto. unfold mset. cbn. rewrite ?Nat.eqb_refl. f_equal.
              apply mset_notin. tauto.
    + apply wp_ret. exists a. cbn. splits; auto; [apply quiet_refl|]. left. splits; auto.
    + cbn in Rd. destruct Rd as (L & N & Rd). apply wp_bind. apply wp_lens. cbn.
      eapply wp_conseq; [apply (w_take OW _ _ _ R Rd)| |easy]. intros _ w' (R' & B').
      exists (wrem x a). cbn. rewrite B'. splits; auto; [apply quiet_refl|]. left. splits; auto.
  - easy.
  - intros (n, w) (a & R). cbn in *. splits; auto. exists a. splits; auto.
  - (* replace *)
    intros (n, w) a lk v x R I C _ X. apply wp_bind, wp_lens. cbn.
    unfold assign, value. assert (LV := live_val (i_live I _ X)). cbn in LV.
    unfold bind at 1. unfold wp. rewrite LV. unfold bind at 1, tick.
    destruct (throws (tk (wget W w))) eqn:T; cbn; rewrite ?(w_bb OW); cbn.
    + splits; auto; [now apply (w_rep OW)|now apply blown_S].
    + splits; auto; [now apply quiet_S|]. exists a. splits; auto. now apply (w_rep OW).
  - intros (n, w) a lk x R I C _ X. cbn in *. splits; auto; [apply quiet_refl|]. eauto.
  - intros (n, w) a lk x R I C _ X. cbn in *. splits; auto; [apply quiet_refl|]. eauto.
  - intros (n, w) a lk x R I C _ X. cbn in *. splits; auto. apply quiet_refl.
Qed.

(** another container as the world *)
Lemma container_world_ok hd (L : Layer V) (Sp : Spec V) rep shell :
  OK throws pick dv hd L Sp rep shell ->
  WOK (container_world L)
    (fun s (a : AV Sp * nat) => rep s (fst a) /\ cget L s = snd a)
    (fun x a => Forall (fun l => NoDup l /\ In x l /\ length l <= S (snd a - 1)) (els Sp (fst a)))
    (fun x a => (arem Sp x (fst a), snd a - 1)).
Proof.
  intros O. split; cbn.
  - apply (o_bb O).
  - apply (o_gs O).
  - apply (o_ss O).
  - intros b s (a, n) (R & C). cbn in *. split; [now apply (o_repb O)|]. now rewrite (o_cb O).
  - intros s (a, n) x (R & C) F. cbn [fst snd] in *. unfold extract_for_transfer, size, set_count.
    apply wp_bind. cbn. apply wp_bind. cbn. subst n.
    eapply wp_conseq; [apply (o_extract O) with (a := a)| |easy].
    + now apply (o_repc O).
    + rewrite (o_cc O). exact F.
    + intros _ s' (R' & C' & B'). rewrite (o_cc O) in C'. rewrite (o_bc O) in B'. auto.
Qed.
End B.
