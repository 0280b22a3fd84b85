(** Every operation of the container keeps its indices consistent, whatever they are. *)
From Verif Require Import Prelude Layer LayerBase Container.
Set Implicit Arguments.

Lemma wp_assoc {S A B C} (m : M S A) (k : M S B) (j : M S C) Q E s :
  wp ((m ;;; k) ;;; j) Q E s -> wp (m ;;; k ;;; j) Q E s.
Proof. unfold wp, bind. destruct (m s); auto. Qed.
Lemma wp_assoc3 {S A B C D} (m : M S A) (k : M S B) (f : B -> M S C) (j : M S D) Q E s :
  wp ((m ;;; c <- k ;; f c) ;;; j) Q E s -> wp (m ;;; c <- k ;; f c ;;; j) Q E s.
Proof. unfold wp, bind. destruct (m s); auto. destruct (k s0); auto. Qed.

Section C.
Variable V : Type.
Variable throws : nat -> bool.
Variable pick : list node -> node.
Variable dv : V.
Hypothesis pick_ok : forall l, ~ In (pick l) (null :: l).
Variable hd : node.
Variable L : Layer V.
Variable S : Spec V.
Variable rep : St L -> AV S -> Prop.
Variable shell : St L -> Prop.
Hypothesis O : OK throws pick dv hd L S rep shell.
Notation val := (val dv).
Notation mm s := (mem (bget L s)).
Notation vv s := (val (bget L s)).
Notation tt_ s := (tk (bget L s)).

(** [lk]: the elements; [out]: the other allocated nodes, apart from the header *)
Record good (s : St L) (a : AV S) (lk out : list node) : Prop := mkG {
  g_rep : rep s a;
  g_inv : inv hd (bget L s) (els S a) lk;
  g_cnt : cget L s = length lk;
  g_ok : aok S (vv s) a;
  g_mem : Permutation (map fst (mm s)) (hd :: lk ++ out) }.

Lemma good_nodup s a lk out : good s a lk out -> NoDup (null :: hd :: lk ++ out).
Proof.
  intros G. eapply NoDup_perm; [|apply (i_mem (g_inv G))]. constructor. apply (g_mem G).
Qed.
Lemma good_out s a lk out x : good s a lk out -> In x out -> ~ In x lk /\ x <> hd /\ x <> null.
Proof.
  intros G I. assert (N := good_nodup G). rewrite !NoDup_cons_iff, NoDup_app_iff in N. cbn in N.
  rewrite !in_app_iff in N. destruct N as (A & B & C & D & F). splits.
  - intros J. now apply (F x).
  - intros ->. tauto.
  - intros ->. tauto.
Qed.
Lemma good_val s a lk out x : good s a lk out -> In x lk -> look (mm s) x = Some (Some (vv s x)).
Proof. intros G I. apply live_val. now apply (i_live (g_inv G)). Qed.

Lemma same_inv vl s s' a a' lk : asame S vl a a' -> mm s' = mm s ->
  inv hd (bget L s) (els S a) lk -> inv hd (bget L s') (els S a') lk.
Proof.
  intros A M [I1 I2 I3 I4 I5]. split; auto.
  - apply (o_sameel O) in A. clear - A I2. induction A as [|l l' ls ls' P F IH]; constructor; inversion I2; subst.
    + now rewrite <- P.
    + auto.
  - intros x I. eapply live_mem; [symmetry; apply M|auto].
  - now rewrite M.
  - now rewrite M.
Qed.
Lemma aok_mem s s' a : mm s' = mm s -> aok S (vv s) a -> aok S (vv s') a.
Proof. intros M A. eapply (o_ext O); [exact A|]. intros x l _ _. now apply val_mem. Qed.

(** nothing changed, up to [asame] *)
Lemma good_same s s' a a' lk out : good s a lk out -> rep s' a' -> cget L s' = cget L s -> asame S (vv s) a a' ->
  mm s' = mm s -> good s' a' lk out.
Proof.
  intros G R C A M. split; auto.
  - eapply same_inv; eauto. apply (g_inv G).
  - rewrite C. apply (g_cnt G).
  - eapply aok_mem; [apply M|]. eapply (o_sameok O); eauto. apply (g_ok G).
  - rewrite M. apply (g_mem G).
Qed.
Lemma good_adv s a lk out s' : good s a lk out -> rep s' a -> cget L s' = cget L s -> mm s' = mm s -> good s' a lk out.
Proof. intros G R C M. eapply good_same; eauto. apply (o_same O). Qed.
Lemma good_perm s a lk out out' : Permutation out out' -> good s a lk out -> good s a lk out'.
Proof. intros P [R I C A M]. split; auto. now rewrite <- P. Qed.

(** an element was added *)
Lemma good_ins s s' a a' lk out out' var v x x' hint :
  good s a lk out -> rep s' a' -> cget L s' = cget L s + 1 ->
  ready S (bget L s) var x v a lk -> inserted pick (bget L s) (bget L s') var x v x' ->
  ains S var (vv s') hint a x' a' -> aok S (vv s') a' ->
  Permutation out (match var with Lvalue => out' | _ => x' :: out' end) ->
  good s' a' (x' :: lk) out'.
Proof.
  intros G R C Rd In_ A Ok P.
  destruct (inserted_ok pick dv pick_ok _ _ _ _ _ _ _ (g_inv G) Rd In_) as (V1 & V2 & V3).
  destruct (g_inv G) as [I1 I2 I3 I4 I5]. cbn in V3.
  assert (PM : Permutation (map fst (mm s')) (hd :: (x' :: lk) ++ out')).
  { destruct var; cbn in In_; destruct In_ as (-> & M); rewrite M.
    - cbn. generalize (pick (map fst (mm s))) as p. intros p. rewrite (g_mem G), P. perm.
    - rewrite (g_mem G). rewrite P. perm.
    - rewrite (g_mem G). rewrite P. perm. }
  split; auto.
  - split.
    + constructor; tauto.
    + apply (o_insel O) in A. clear - A I2. induction A as [|l l' ls ls' P F IH]; constructor; inversion I2; subst.
      * rewrite P. now constructor.
      * auto.
    + intros y [<-|Iy].
      * destruct var; cbn in In_, Rd; destruct In_ as (-> & M).
        -- exists v. rewrite M. cbn. now rewrite Nat.eqb_refl.
        -- exists v. now rewrite M.
        -- exists v. now rewrite M.
      * destruct (I3 y Iy) as (w & Lk). exists w. destruct var; cbn in In_; destruct In_ as (Ex & M); rewrite M; auto.
        cbn. destruct (Nat.eqb_spec y x') as [->|]; tauto.
    + destruct var; cbn in In_; destruct In_ as (Ex & M); rewrite M; auto.
      cbn. rewrite Ex. assert (NP := @pick_ok (map fst (mm s))). cbn in NP. rewrite !NoDup_cons_iff in *. cbn.
      split; [intros [E|E]; [symmetry in E|]; tauto|]. tauto.
    + destruct var; cbn in In_; destruct In_ as (Ex & M); rewrite M; auto.
      cbn. destruct (Nat.eqb_spec hd x') as [->|]; tauto.
  - cbn. rewrite C, (g_cnt G). lia.
Qed.

(** an element was removed *)
Lemma els_rem s a x lk : rep s a -> inv hd (bget L s) (els S a) lk -> In x lk ->
  inv hd (bget L s) (els S (arem S x a)) (remove Nat.eq_dec x lk).
Proof.
  intros R [I1 I2 I3 I4 I5] Ix. split; auto.
  - now apply remove_nodup.
  - rewrite (o_elrem O _ _ x R), Forall_map. eapply Forall_impl; [|exact I2]. intros l P. now apply perm_remove.
  - intros y Iy. apply in_remove in Iy. now apply I3.
Qed.
Lemma good_rem s s' a x lk out :
  good s a lk out -> In x lk -> rep s' (arem S x a) -> cget L s' = cget L s - 1 -> mm s' = mm s ->
  good s' (arem S x a) (remove Nat.eq_dec x lk) (x :: out).
Proof.
  intros G Ix R C M. split; auto.
  - eapply inv_mem; [symmetry; apply M|]. apply els_rem; auto; apply G.
  - rewrite C, (g_cnt G). assert (Ln := length_remove x (i_nd (g_inv G)) Ix). unfold node in *; lia.
  - eapply aok_mem; eauto. apply (o_okrem O), G.
  - rewrite M, (g_mem G). constructor. rewrite <- Permutation_middle.
    assert (P := Ix). apply in_split in P as (l1 & l2 & ->).
    rewrite remove_mid by apply (i_nd (g_inv G)). perm.
Qed.

(** a node outside the container was deallocated *)
Lemma inv_del (b b' : bst V) ls lk x : inv hd b ls lk -> ~ In x lk -> x <> hd -> mem b' = mdel (mem b) x ->
  inv hd b' ls lk.
Proof.
  intros [I1 I2 I3 I4 I5] Nx Nh M. split; auto.
  - intros y Iy. destruct (I3 y Iy) as (w & Lk). exists w. rewrite M, look_mdel.
    destruct (Nat.eqb_spec y x) as [->|]; tauto.
  - rewrite M, fst_mdel. apply NoDup_cons_iff in I4. constructor.
    + intros I. apply in_remove in I. tauto.
    + now apply remove_nodup.
  - rewrite M, look_mdel. destruct (Nat.eqb_spec hd x); congruence.
Qed.
Lemma val_mdel (b b' : bst V) x y : mem b' = mdel (mem b) x -> y <> x -> val b' y = val b y.
Proof. intros M N. unfold Layer.val. rewrite M, look_mdel. now rewrite (proj2 (Nat.eqb_neq y x) N). Qed.
Lemma good_del s s' a lk out x :
  good s a lk (x :: out) -> rep s' a -> cget L s' = cget L s -> mm s' = mdel (mm s) x ->
  good s' a lk out.
Proof.
  intros G R C M. destruct (good_out x G) as (N1 & N2 & N3); [now left|]. split; auto.
  - eapply inv_del; eauto. apply G.
  - rewrite C. apply G.
  - eapply (o_ext O); [apply (g_ok G)|]. intros y l I J. symmetry. eapply val_mdel; eauto.
    intros ->. apply N1. assert (F := i_perm (g_inv G)). rewrite Forall_forall in F.
    eapply Permutation_in; [apply F; eauto|auto].
  - rewrite M, fst_mdel. eapply perm_trans; [apply perm_remove, (g_mem G)|].
    assert (N := good_nodup G). apply NoDup_cons_iff in N as (_ & N).
    replace (hd :: lk ++ x :: out) with ((hd :: lk) ++ x :: out) in * by reflexivity.
    rewrite remove_mid by auto. reflexivity.
Qed.

Lemma wp_bas {A} (m : BM V A) (Q : A -> St L -> Prop) E s :
  wp m (fun r b => Q r (bset L b s)) (fun b => E (bset L b s)) (bget L s) -> wp (basM L m) Q E s.
Proof. apply wp_lens. Qed.

Lemma wp_delete s x v (Q : unit -> St L -> Prop) E :
  look (mm s) x = Some (Some v) ->
  Q tt (bset L (mkB (mdel (mm s) x) (tt_ s)) s) ->
  wp (basM L (delete_node x)) Q E s.
Proof.
  intros Lk H. apply wp_bas. unfold delete_node, wp, bind, destroy_value, deallocate_node. rewrite Lk. cbn [mem tk].
  rewrite look_mset, Nat.eqb_refl, Lk. cbn [mem tk]. now rewrite mdel_mset.
Qed.
Lemma wp_value s x v (Q : V -> St L -> Prop) E :
  look (mm s) x = Some (Some v) -> Q v s -> wp (basM L (value x)) Q E s.
Proof.
  intros Lk H. apply wp_bas. unfold value, wp. rewrite Lk. now rewrite (o_gs O).
Qed.
Lemma wp_dec s (Q : unit -> St L -> Prop) E : Q tt (cset L (cget L s - 1) s) -> wp (dec L) Q E s.
Proof. auto. Qed.
Lemma wp_inc s (Q : unit -> St L -> Prop) E : Q tt (cset L (Datatypes.S (cget L s)) s) -> wp (inc L) Q E s.
Proof. auto. Qed.

(** ** insert *)
Notation quiet := (quiet throws).
Notation blown := (blown throws).

Lemma good_cset s a lk out n : good s a lk out -> n = length lk -> good (cset L n s) a lk out.
Proof.
  intros [R I C A M] ->. split.
  - now apply (o_repc O).
  - now rewrite (o_bc O).
  - now rewrite (o_cc O).
  - now rewrite (o_bc O).
  - now rewrite (o_bc O).
Qed.
Lemma good_ins' s s' a a' lk out out' var v x x' hint :
  good s a lk out -> rep s' a' -> cget L s' = cget L s ->
  ready S (bget L s) var x v a lk -> inserted pick (bget L s) (bget L s') var x v x' ->
  ains S var (vv s') hint a x' a' -> aok S (vv s') a' ->
  Permutation out (match var with Lvalue => out' | _ => x' :: out' end) ->
  good (cset L (Datatypes.S (cget L s')) s') a' (x' :: lk) out'.
Proof.
  intros G R C Rd I A Ok P. eapply good_ins; eauto.
  - now apply (o_repc O).
  - rewrite (o_cc O). lia.
  - rewrite (o_bc O). exact I.
  - rewrite (o_bc O). exact A.
  - rewrite (o_bc O). exact Ok.
Qed.

(** postcondition of a failed insertion *)
Definition kept (s s' : St L) (a : AV S) (lk out : list node) : Prop :=
  mm s' = mm s /\ exists a', good s' a' lk out /\ asame S (vv s) a a'.
(** postcondition of a successful one: [x], with value [v], is a new element *)
Definition added (s s' : St L) (a : AV S) (lk out : list node) var hint x (v : V) : Prop :=
  vv s' x = v /\ (forall y, In y lk -> vv s' y = vv s y) /\
  (forall y, In y lk -> ~ aconf S v (vv s y)) /\
  exists a', good s' a' (x :: lk) out /\ ains S var (vv s') hint a x a'.

Theorem insert_spec s a lk out v hint :
  good s a lk out -> hint_ok hd hint lk ->
  wp (c_insert L v hint)
     (fun r s' => quiet (tt_ s) (tt_ s') /\
        if snd r then ~ In (fst r) (map fst (mm s)) /\ mm s' = (fst r, Some v) :: mm s /\
                      added s s' a lk out Lvalue hint (fst r) v
        else In (fst r) lk /\ aconf S v (vv s (fst r)) /\ kept s s' a lk out)
     (fun s' => blown (tt_ s) (tt_ s') /\ kept s s' a lk out) s.
Proof.
  intros G H. unfold c_insert. apply wp_bind.
  eapply wp_conseq; [eapply (o_insert O) with (a := a) (lk := lk) (x := null) (var := Lvalue); auto; try apply G; reflexivity| |].
  - intros (res, x) s' (a' & R & C & Q & [(E & I & NC & A & Ok)|(E & X & Ir & Cf & Sm & M)]); cbn [fst snd] in *.
    + subst res. unfold conclude. rewrite Nat.eqb_refl. apply wp_bind, wp_inc, wp_ret. cbn [fst snd].
      destruct (inserted_ok pick dv pick_ok _ S a Lvalue null v x (g_inv G) eq_refl I) as (V1 & V2 & V3).
      rewrite (o_bc O). splits; auto.
      * destruct I as (-> & _). assert (NP := @pick_ok (map fst (mm s))). cbn in NP. tauto.
      * apply I.
      * unfold added. rewrite (o_bc O). splits; auto. exists a'. split; auto.
        eapply good_ins' with (var := Lvalue) (x := null); eauto. reflexivity.
    + unfold conclude. rewrite (proj2 (Nat.eqb_neq res x) E). apply wp_ret. cbn [fst snd]. splits; auto.
      unfold kept. split; auto. exists a'. split; auto. eapply good_same; eauto.
  - intros s' (a' & R & C & Sm & M & B). split; auto. split; auto. exists a'. split; auto. eapply good_same; eauto.
Qed.

(** the memory with a fresh node *)
Lemma good_alloc s a lk out o n : good s a lk out ->
  let x := pick (map fst (mm s)) in
  good (bset L (mkB ((x, o) :: mm s) n) s) a lk (x :: out) /\ x <> hd /\ ~ In x lk /\
  (forall y, In y lk -> val (mkB ((x, o) :: mm s) n) y = vv s y).
Proof.
  intros G x. assert (NP := @pick_ok (map fst (mm s))). fold x in NP. cbn in NP.
  assert (N : ~ In x (hd :: lk ++ out)). { intros I. apply NP. right. rewrite (g_mem G). exact I. }
  cbn in N. rewrite in_app_iff in N.
  assert (VE : forall y, In y lk -> val (mkB ((x, o) :: mm s) n) y = vv s y).
  { intros y I. unfold Layer.val. cbn. destruct (Nat.eqb_spec y x); subst; tauto. }
  split; [|split; [intros E; apply N; auto|split; [tauto|exact VE]]]. destruct G as [R I C A M]. split.
  - now apply (o_repb O).
  - rewrite (o_bb O). destruct I as [I1 I2 I3 I4 I5]. split; auto.
    + intros y Iy. destruct (I3 y Iy) as (w & Lk). exists w. cbn. destruct (Nat.eqb_spec y x); subst; tauto.
    + cbn. rewrite !NoDup_cons_iff in *. cbn. split; [intros [E|E]; [symmetry in E|]; tauto|tauto].
    + cbn. destruct (Nat.eqb_spec hd x); subst; tauto.
  - now rewrite (o_cb O).
  - rewrite (o_bb O). eapply (o_ext O); [exact A|]. intros y l J K. symmetry. apply VE.
    assert (F := i_perm I). rewrite Forall_forall in F. eapply Permutation_in; [apply F; eauto|auto].
  - rewrite (o_bb O). cbn. rewrite M. perm.
Qed.

Lemma val_mset (b b' : bst V) x v y : mem b' = mset (mem b) x v -> y <> x -> val b' y = val b y.
Proof. intros M N. unfold Layer.val. rewrite M, look_mset. now rewrite (proj2 (Nat.eqb_neq y x) N). Qed.

Lemma live_look (b : bst V) x v : look (mem b) x = Some (Some v) -> val b x = v.
Proof. intros E. unfold Layer.val. now rewrite E. Qed.

(** ** emplace *)
Lemma good_bset_tk s a lk out n : good s a lk out -> good (bset L (mkB (mm s) n) s) a lk out.
Proof.
  intros G. eapply good_adv; eauto.
  - apply (o_repb O), G.
  - apply (o_cb O).
  - now rewrite (o_bb O).
Qed.
Lemma kept_self s s' a lk out : good s a lk out -> rep s' a -> cget L s' = cget L s -> mm s' = mm s ->
  kept s s' a lk out.
Proof. intros G R C M. split; auto. exists a. split; [eapply good_adv; eauto|apply (o_same O)]. Qed.

Lemma mdel_head x o (m : list (node * option V)) : ~ In x (map fst m) -> mdel ((x, o) :: m) x = m.
Proof. intros N. unfold mdel. cbn. rewrite Nat.eqb_refl. cbn. now apply mdel_notin. Qed.
Lemma mset_head x o o' (m : list (node * option V)) : ~ In x (map fst m) -> mset ((x, o) :: m) x o' = (x, o') :: m.
Proof. intros N. unfold mset. cbn. rewrite Nat.eqb_refl. cbn. f_equal. now apply mset_notin. Qed.

Theorem emplace_spec s a lk out v hint :
  good s a lk out -> hint_ok hd hint lk -> (forall x, aready S Emplaced x a) ->
  wp (c_emplace throws pick L v hint)
     (fun r s' => quiet (tt_ s) (tt_ s') /\
        if snd r then ~ In (fst r) (map fst (mm s)) /\ mm s' = (fst r, Some v) :: mm s /\
                      added s s' a lk out Emplaced hint (fst r) v
        else In (fst r) lk /\ aconf S v (vv s (fst r)) /\ kept s s' a lk out)
     (fun s' => blown (tt_ s) (tt_ s') /\ kept s s' a lk out) s.
Proof.
  intros G H AR. unfold c_emplace. set (x := pick (map fst (mm s))).
  assert (NP := @pick_ok (map fst (mm s))). fold x in NP. cbn in NP.
  apply wp_bind, wp_bas. unfold allocate_node. apply wp_tick; intros T1.
  2:{ split.
    - rewrite (o_bb O). cbn. now apply blown_S.
    - apply kept_self; auto; [apply (o_repb O), G|apply (o_cb O)|now rewrite (o_bb O)]. }
  unfold wp at 1. cbn [mem tk]. fold x. set (s1 := bset L _ s).
  assert (B1 : bget L s1 = mkB ((x, None) :: mm s) (Datatypes.S (tt_ s))) by apply (o_bb O).
  destruct (good_alloc None (Datatypes.S (tt_ s)) G) as (G1 & Nh & Nl & V1). fold x s1 in G1, Nh, Nl, V1.
  apply wp_try, wp_bind, wp_bas. unfold construct_value. 
  assert (Del : forall s' n, rep s' a -> cget L s' = cget L s -> bget L s' = mkB ((x, None) :: mm s) n ->
    blown (tt_ s) n ->
    wp (basM L (deallocate_node x) ;;; @throw _ (node * bool))
      (fun r s' => quiet (tt_ s) (tt_ s') /\
        if snd r then ~ In (fst r) (map fst (mm s)) /\ mm s' = (fst r, Some v) :: mm s /\
                      added s s' a lk out Emplaced hint (fst r) v
        else In (fst r) lk /\ aconf S v (vv s (fst r)) /\ kept s s' a lk out)
     (fun s' => blown (tt_ s) (tt_ s') /\ kept s s' a lk out) s').
  { intros s' n R C B Bl. apply wp_bind, wp_bas. rewrite B. unfold deallocate_node, wp at 1. cbn - [mdel].
    rewrite Nat.eqb_refl. rewrite mdel_head by tauto. split.
    - rewrite (o_bb O). exact Bl.
    - apply kept_self; auto; [now apply (o_repb O)|now rewrite (o_cb O)|now rewrite (o_bb O)]. }
  rewrite B1. apply wp_tick; cbn [mem tk]; intros T2.
  2:{ eapply Del.
    - apply (o_repb O), (g_rep G1).
    - rewrite (o_cb O). apply (o_cb O).
    - apply (o_bb O).
    - eapply blown_trans; [now apply quiet_S|now apply blown_S]. }
  unfold wp at 1. cbn - [mset]. rewrite Nat.eqb_refl. rewrite mset_head by tauto. unfold s1. rewrite (o_ss O). clear s1 B1 G1 V1.
  destruct (good_alloc (Some v) (Datatypes.S (Datatypes.S (tt_ s))) G) as (G1 & _ & _ & V1). fold x in G1, V1.
  set (s1 := bset L _ s) in *.
  assert (B1 : bget L s1 = mkB ((x, Some v) :: mm s) (Datatypes.S (Datatypes.S (tt_ s)))) by apply (o_bb O).
  assert (LK : look (mm s1) x = Some (Some v)). { rewrite B1. cbn. now rewrite Nat.eqb_refl. }
  assert (Q1 : quiet (tt_ s) (tt_ s1)).
  { rewrite B1. cbn. eapply quiet_trans; apply quiet_S; eauto. }
  assert (SE : forall a', asame S (vv s1) a a' -> asame S (vv s) a a').
  { intros a' Sm. eapply (o_sameext O); [exact Sm|]. intros y l Il Iy. rewrite B1. apply V1.
    assert (P := i_perm (g_inv G)). rewrite Forall_forall in P. eapply Permutation_in; [apply P; eauto|auto]. }
  apply wp_try, wp_bind. eapply wp_value; [exact LK|]. apply wp_bind.
  eapply wp_conseq; [eapply (o_insert O) with (a := a) (lk := lk) (x := x) (var := Emplaced); auto; try apply G1| |].
  - cbn. splits; auto.
  - intros (res, x') s' (a' & R & C & Q & [(E & I & NC & A & Ok)|(E & X & Ir & Cf & Sm & M)]); cbn [fst snd] in *.
    + subst res. rewrite Nat.eqb_refl. assert (I' := I). destruct I as (-> & M). apply wp_bind, wp_inc, wp_ret. cbn [fst snd].
      rewrite (o_bc O). splits; auto.
      * eapply quiet_trans; eauto.
      * rewrite M, B1. reflexivity.
      * unfold added. rewrite (o_bc O). splits.
        -- unfold Layer.val. now rewrite M, LK.
        -- intros y Iy. rewrite <- (V1 y Iy). rewrite <- B1. now apply val_mem.
        -- intros y Iy. rewrite <- (V1 y Iy). rewrite <- B1. now apply NC.
        -- exists a'. split; auto. eapply good_ins' with (var := Emplaced) (x := x) (v := v); eauto.
           cbn. splits; auto.
    + apply SE in Sm. rewrite (proj2 (Nat.eqb_neq res x') E). subst x'. apply wp_bind. eapply wp_delete; [now rewrite M, LK|].
      apply wp_ret. cbn [fst snd]. rewrite (o_bb O). cbn [tk mem]. splits; auto.
      * eapply quiet_trans; eauto.
      * rewrite <- (V1 res Ir), <- B1. exact Cf.
      * unfold kept. rewrite (o_bb O). cbn [mem]. rewrite M, B1. cbn [mem]. rewrite mdel_head by tauto. split; auto.
        exists a'. split; auto. eapply good_same; eauto.
        -- now apply (o_repb O).
        -- rewrite (o_cb O), C. apply (o_cb O).
        -- now rewrite (o_bb O).
  - intros s' (a' & R & C & Sm & M & B). apply SE in Sm. apply wp_bind, wp_bas. unfold destroy_value, wp at 1. rewrite M, LK.
    rewrite B1. cbn [mem]. rewrite mset_head by tauto. apply wp_throw.
    apply wp_bind, wp_bas. unfold deallocate_node, wp at 1. rewrite (o_bb O). cbn - [mdel].
    rewrite Nat.eqb_refl. rewrite mdel_head by tauto. rewrite (o_ss O). rewrite (o_bb O). cbn [tk]. split.
    + eapply blown_trans; eauto.
    + unfold kept. rewrite (o_bb O). cbn [mem]. split; auto. exists a'. split; auto. eapply good_same; eauto.
      * now apply (o_repb O).
      * rewrite (o_cb O), C. apply (o_cb O).
      * now rewrite (o_bb O).
Qed.

(** ** node handles *)
Theorem insert_nh_spec s a lk out x hint :
  good s a lk (x :: out) -> live (bget L s) x -> hint_ok hd hint lk -> aready S Emplaced x a ->
  wp (c_insert_nh hd L (Some x) hint)
     (fun r s' => quiet (tt_ s) (tt_ s') /\ mm s' = mm s /\
        let '(res, b, nh) := r in
        if b : bool then res = x /\ nh = None /\ added s s' a lk out Emplaced hint x (vv s x)
        else nh = Some x /\ In res lk /\ aconf S (vv s x) (vv s res) /\ kept s s' a lk (x :: out))
     (fun s' => blown (tt_ s) (tt_ s') /\ kept s s' a lk (x :: out)) s.
Proof.
  intros G Lv H AR. apply live_val with (dv := dv) in Lv. destruct (good_out x G) as (N1 & N2 & N3); [now left|].
  unfold c_insert_nh. apply wp_bind. eapply wp_value; [exact Lv|]. apply wp_bind.
  assert (Rd : ready S (bget L s) Emplaced x (vv s x) a lk) by (cbn; splits; auto).
  eapply wp_conseq; [eapply (o_insert O) with (a := a) (lk := lk) (x := x) (var := Emplaced); eauto; try apply G| |].
  - intros (res, x') s' (a' & R & C & Q & [(E & I & NC & A & Ok)|(E & X & Ir & Cf & Sm & M)]); cbn [fst snd] in *.
    + subst res. rewrite Nat.eqb_refl. assert (I' := I). destruct I as (-> & M). apply wp_bind, wp_inc, wp_ret.
      rewrite (o_bc O). splits; auto. unfold added. rewrite (o_bc O). splits; auto.
      * now apply val_mem.
      * intros y _. now apply val_mem.
      * exists a'. split; auto. eapply good_ins' with (var := Emplaced) (x := x) (out := x :: out) (v := vv s x); eauto.
    + rewrite (proj2 (Nat.eqb_neq res x') E). apply wp_ret. splits; auto. split; auto. exists a'. split; auto.
      eapply good_same; eauto.
  - intros s' (a' & R & C & Sm & M & B). split; auto. split; auto. exists a'. split; auto. eapply good_same; eauto.
Qed.

Lemma extract_pre s a lk out x n : good s a lk out -> In x lk -> n = cget L s - 1 ->
  rep (cset L n s) a /\
  Forall (fun l => NoDup l /\ In x l /\ length l <= Datatypes.S (cget L (cset L n s))) (els S a).
Proof.
  intros G Ix ->. split; [apply (o_repc O), G|]. rewrite (o_cc O), (g_cnt G).
  eapply Forall_impl; [|apply (i_perm (g_inv G))]. intros l P. splits.
  - eapply NoDup_perm; [symmetry; exact P|apply (i_nd (g_inv G))].
  - eapply Permutation_in; [symmetry; exact P|auto].
  - rewrite (Permutation_length P). lia.
Qed.

Theorem extract_spec s a lk out x :
  good s a lk out -> In x lk ->
  wp (c_extract L x)
     (fun r s' => r = Some x /\ bget L s' = bget L s /\
        good s' (arem S x a) (remove Nat.eq_dec x lk) (x :: out))
     (fun _ => False) s.
Proof.
  intros G Ix. unfold c_extract. apply wp_bind, wp_dec, wp_bind.
  destruct (extract_pre x G Ix eq_refl) as (R & F).
  eapply wp_conseq; [eapply (o_extract O); eauto| |easy].
  intros _ s' (R' & C' & B'). rewrite (o_cc O) in C'. rewrite (o_bc O) in B'. apply wp_ret. splits; auto.
  eapply good_rem; eauto. now rewrite B'.
Qed.

Theorem erase_spec s a lk out x (Q : unit -> St L -> Prop) E :
  good s a lk out -> In x lk ->
  (forall s', good s' (arem S x a) (remove Nat.eq_dec x lk) out -> tt_ s' = tt_ s -> mm s' = mdel (mm s) x -> Q tt s') ->
  wp (c_erase L x) Q E s.
Proof.
  intros G Ix K. unfold c_erase. apply wp_bind, wp_dec, wp_bind.
  destruct (extract_pre x G Ix eq_refl) as (R & F).
  eapply wp_conseq; [eapply (o_extract O); eauto| |easy].
  intros _ s' (R' & C' & B'). rewrite (o_cc O) in C'. rewrite (o_bc O) in B'.
  assert (G' : good s' (arem S x a) (remove Nat.eq_dec x lk) (x :: out)) by (eapply good_rem; eauto; now rewrite B').
  eapply wp_delete; [rewrite B'; apply (good_val x G Ix)|]. apply K.
  - eapply good_del; eauto.
    + apply (o_repb O), G'.
    + apply (o_cb O).
    + now rewrite (o_bb O).
  - rewrite (o_bb O). cbn. now rewrite B'.
  - rewrite (o_bb O). cbn. now rewrite B'.
Qed.

Lemma fst_without_incl l (m : list (node * option V)) y : In y (map fst (without l m)) -> In y (map fst m) /\ ~ In y l.
Proof.
  unfold without. rewrite !in_map_iff. intros ((z, o) & <- & I). apply filter_In in I as (I & N). cbn in *. split.
  - now exists (z, o).
  - intros J. apply negb_true_iff in N. assert (X : existsb (Nat.eqb z) l = true); [|congruence].
    apply existsb_exists. exists z. split; auto. apply Nat.eqb_refl.
Qed.
Lemma fst_without l (m : list (node * option V)) o : NoDup (l ++ o) -> Permutation (map fst m) (l ++ o) ->
  Permutation (map fst (without l m)) o.
Proof.
  revert m. induction l as [|x l IH]; intros m N P.
  - now rewrite without_nil.
  - rewrite without_cons. cbn in N, P. apply IH; [now inversion N|]. rewrite fst_mdel.
    rewrite (perm_remove x P). change (x :: l ++ o) with ([] ++ x :: (l ++ o)). now rewrite remove_mid.
Qed.
Lemma fst_without_nd l (m : list (node * option V)) : NoDup (map fst m) -> NoDup (map fst (without l m)).
Proof.
  revert m. induction l as [|x l IH]; intros m N.
  - now rewrite without_nil.
  - rewrite without_cons. apply IH. rewrite fst_mdel. now apply remove_nodup.
Qed.

(** a container has at least one index *)
Hypothesis has_index : forall a, els S a <> [].

Lemma delete_all_spec s a lk out :
  good s a lk out ->
  wp (l_delete_all L)
     (fun _ s' => shell s' /\ cget L s' = cget L s /\ tt_ s' = tt_ s /\ mm s' = without lk (mm s))
     (fun _ => False) s.
Proof.
  intros G. destruct (els S a) as [|l ls] eqn:E; [now apply has_index in E|].
  assert (I := g_inv G). rewrite E in I. assert (P := inv_hd I).
  eapply wp_conseq; [eapply (o_delete O) with (a := a); eauto| |easy].
  - apply G.
  - rewrite (Permutation_length P), (g_cnt G). lia.
  - assert (N := i_mem I). now apply NoDup_cons_iff in N.
  - intros x Ix. apply (i_live I). eapply Permutation_in; eauto.
  - intros _ s' (Sh & C & T & M). splits; auto. rewrite M. change (without l (mm s) = without lk (mm s)).
    now apply without_perm.
Qed.

Theorem clear_spec s a lk out :
  good s a lk out ->
  wp (c_clear L)
     (fun _ s' => tt_ s' = tt_ s /\ mm s' = without lk (mm s) /\
        exists a', good s' a' [] out /\ Forall (eq []) (els S a'))
     (fun _ => False) s.
Proof.
  intros G. unfold c_clear. apply wp_bind. eapply wp_conseq; [eapply delete_all_spec; eauto| |easy].
  intros _ s1 (Sh & C & T & M). apply wp_bind. eapply wp_conseq; [apply (o_clear O _ Sh)| |easy].
  intros _ s2 ((a' & R & F & A) & C2 & B2). unfold wp, set_count. rewrite (o_bc O), B2. splits; auto.
  assert (N := good_nodup G). assert (NO : forall y, In y (hd :: out) -> ~ In y lk).
  { rewrite !NoDup_cons_iff, NoDup_app_iff in N. cbn in N. rewrite !in_app_iff in N. intros y [<-|Iy]; [tauto|].
    intros J. destruct N as (_ & _ & _ & _ & X). now apply (X y). }
  exists a'. split; auto. split.
  - now apply (o_repc O).
  - rewrite (o_bc O), B2. split.
    + constructor.
    + eapply Forall_impl; [|exact F]. now intros l <-.
    + easy.
    + rewrite M. assert (IM := i_mem (g_inv G)). apply NoDup_cons_iff in IM. constructor; [|now apply fst_without_nd].
      intros X. apply fst_without_incl in X. tauto.
    + rewrite M, look_without; [apply (i_hd (g_inv G))|]. apply NO. now left.
  - apply (o_cc O).
  - apply A.
  - rewrite (o_bc O), B2, M. apply fst_without.
    + apply NoDup_cons_iff in N as (_ & N). eapply NoDup_perm; [|exact N]. perm.
    + rewrite (g_mem G). perm.
Qed.

(** destruction leaves only the nodes outside the container *)
Theorem destroy_spec s a lk out :
  good s a lk out ->
  wp (c_destroy hd L)
     (fun _ s' => tt_ s' = tt_ s /\ mm s' = without (lk ++ [hd]) (mm s) /\ Permutation (map fst (mm s')) out)
     (fun _ => False) s.
Proof.
  intros G. unfold c_destroy. apply wp_bind. eapply wp_conseq; [eapply delete_all_spec; eauto| |easy].
  intros _ s1 (Sh & C & T & M). apply wp_bas.
  assert (N := good_nodup G). apply NoDup_cons_iff in N as (_ & N). assert (Nh : ~ In hd lk).
  { apply NoDup_cons_iff in N. rewrite in_app_iff in N. tauto. }
  unfold deallocate_node, wp. rewrite M, look_without by auto. rewrite (i_hd (g_inv G)). rewrite (o_bb O). cbn [tk mem].
  rewrite without_one, without_app. splits; auto. apply fst_without.
  + rewrite <- app_assoc. cbn. eapply NoDup_perm; [|exact N]. apply Permutation_middle.
  + rewrite (g_mem G). perm.
Qed.

(** ** replace *)

(** an element has a new value and, perhaps, new positions *)
Lemma mov_inv (b b' : bst V) a a' lk x (f : node -> V) :
  amov S f x a a' -> map fst (mem b') = map fst (mem b) -> (forall y, In y lk -> live b' y) ->
  look (mem b') hd = look (mem b) hd ->
  inv hd b (els S a) lk -> inv hd b' (els S a') lk.
Proof.
  intros A M Lv H [I1 I2 I3 I4 I5]. split; auto.
  - apply (o_movel O) in A. clear - A I2. induction A as [|l l' ls ls' P F IH]; constructor; inversion I2; subst.
    + now rewrite <- P.
    + auto.
  - now rewrite M.
  - congruence.
Qed.

Theorem replace_spec s a lk out v x :
  good s a lk out -> In x lk ->
  wp (c_replace L v x)
     (fun r s' => quiet (tt_ s) (tt_ s') /\
        if r : bool then
          mm s' = mset (mm s) x (Some v) /\
          (forall y, In y lk -> y <> x -> ~ aconf S v (vv s y)) /\
          exists a', good s' a' lk out /\ amov S (vv s') x a a'
        else mm s' = mm s /\ good s' a lk out /\ exists y, In y lk /\ y <> x /\ aconf S v (vv s y))
     (fun s' => blown (tt_ s) (tt_ s') /\ mm s' = mm s /\ good s' a lk out) s.
Proof.
  intros G Ix. unfold c_replace.
  assert (NE : x <> hd). { intros ->. assert (H := i_hd (g_inv G)). assert (X := good_val hd G Ix). congruence. }
  eapply wp_conseq; [eapply (o_replace O) with (a := a); eauto; apply G| |].
  - intros [|] s' (C & Q & R); split; auto.
    + destruct R as (M & NC & a' & R & A & Ok). splits; auto. exists a'. split; auto. split; auto.
      * eapply mov_inv with (b := bget L s); eauto; [|..|apply (g_inv G)].
        -- rewrite M. apply fst_mset.
        -- intros y Iy. destruct (i_live (g_inv G) y Iy) as (w & Lk). unfold live. rewrite M, look_mset.
           destruct (Nat.eqb_spec y x) as [->|]; eauto. rewrite Lk. eauto.
        -- rewrite M, look_mset. now rewrite (proj2 (Nat.eqb_neq hd x)) by congruence.
      * rewrite C. apply G.
      * rewrite M, fst_mset. apply G.
    + destruct R as (M & R & y & Iy & Ny & Cf). splits; auto; [eapply good_adv; eauto|eauto].
  - intros s' (R & C & M & B). splits; auto. eapply good_adv; eauto.
Qed.

(** ** modify *)

(** the state after the user-supplied function changed the value of [x] *)
Record odd (s : St L) (a : AV S) (lk out : list node) (x : node) : Prop := mkOdd {
  d_rep : rep s a;
  d_inv : inv hd (bget L s) (els S a) lk;
  d_cnt : cget L s = length lk;
  d_ok : nearly S (vv s) x a;
  d_mem : Permutation (map fst (mm s)) (hd :: lk ++ out) }.

Lemma odd_mod s a lk out x w n s' : odd s a lk out x -> In x lk ->
  s' = bset L (mkB (mset (mm s) x (Some w)) n) s ->
  odd s' a lk out x /\ mm s' = mset (mm s) x (Some w) /\ vv s' x = w.
Proof.
  intros G Ix Es'. assert (B : bget L s' = mkB (mset (mm s) x (Some w)) n).
  { rewrite Es'. apply (o_bb O). }
  assert (NE : x <> hd).
  { intros ->. assert (H := i_hd (d_inv G)). destruct (i_live (d_inv G) _ Ix) as (u & Lk). congruence. }
  assert (M : mm s' = mset (mm s) x (Some w)) by (rewrite B; auto).
  split; [|split; auto].
  - split.
    + rewrite Es'. apply (o_repb O), G.
    + destruct (d_inv G) as [I1 I2 I3 I4 I5]. split; auto.
      * intros y Iy. destruct (I3 y Iy) as (u & Lk). unfold live. rewrite M, look_mset.
        destruct (Nat.eqb_spec y x) as [->|]; eauto. rewrite Lk. eauto.
      * now rewrite M, fst_mset.
      * rewrite M, look_mset. now rewrite (proj2 (Nat.eqb_neq hd x)) by congruence.
    + rewrite Es', (o_cb O). apply G.
    + destruct (d_ok G) as (v0 & E0 & A0). exists v0. split; auto. intros y N. rewrite E0 by auto. symmetry. eapply val_mset; eauto.
    + rewrite M, fst_mset. apply G.
  - unfold Layer.val. rewrite M, look_mset, Nat.eqb_refl. destruct (i_live (d_inv G) _ Ix) as (u & Lk). now rewrite Lk.
Qed.

Lemma good_odd s a lk out x : good s a lk out -> odd s a lk out x.
Proof. intros [R I C A M]. split; auto. now apply nearly_ok. Qed.
(** without [x] the arrangement is right *)
Lemma odd_rem s a lk out x : odd s a lk out x -> aok S (vv s) (arem S x a).
Proof.
  intros [R I C (v0 & E & A) M]. eapply (o_ext O); [apply (o_okrem O); exact A|]. intros y l I1 J.
  apply E. rewrite (o_elrem O _ _ x R) in I1. apply in_map_iff in I1 as (l' & <- & I1). apply in_remove in J. tauto.
Qed.
Lemma odd_good s a lk out x : odd s a lk out x -> aok S (vv s) a -> good s a lk out.
Proof. intros [R I C A M] Ok. split; auto. Qed.
Lemma odd_same s s' a lk out x : odd s a lk out x -> rep s' a -> cget L s' = cget L s -> mm s' = mm s -> odd s' a lk out x.
Proof.
  intros [R I C A M] R' C' M'. split; auto.
  - eapply inv_mem; [symmetry; exact M'|auto].
  - congruence.
  - eapply nearly_ext; [exact A|]. intros y. symmetry. now apply val_mem.
  - now rewrite M'.
Qed.

Lemma apply_spec s a lk out x f fx : odd s a lk out x -> In x lk ->
  wp (basM L (apply_mod throws f fx x))
     (fun _ s' => quiet (tt_ s) (tt_ s') /\ mm s' = mset (mm s) x (Some (f (vv s x))) /\
        odd s' a lk out x /\ vv s' x = f (vv s x))
     (fun s' => blown (tt_ s) (tt_ s') /\ mm s' = mset (mm s) x (Some (fx (vv s x))) /\
        odd s' a lk out x /\ vv s' x = fx (vv s x)) s.
Proof.
  intros G Ix. apply wp_bas. unfold apply_mod. assert (Lk := live_val dv (i_live (d_inv G) _ Ix)).
  unfold value, bind at 1, wp. rewrite Lk. unfold try_catch, tick, bind. destruct (throws (tt_ s)) eqn:T; cbn - [mset].
  - edestruct (@odd_mod s a lk out x (fx (vv s x)) (Datatypes.S (tt_ s)) _ G Ix eq_refl) as (D1 & D2 & D3).
    splits; auto. rewrite (o_bb O). cbn [tk]. now apply blown_S.
  - edestruct (@odd_mod s a lk out x (f (vv s x)) (Datatypes.S (tt_ s)) _ G Ix eq_refl) as (D1 & D2 & D3).
    splits; auto. rewrite (o_bb O). cbn [tk]. now apply quiet_S.
Qed.

(** the element is gone *)
Lemma erase_odd s a lk out x (Q : unit -> St L -> Prop) E :
  odd s a lk out x -> In x lk ->
  (forall s', good s' (arem S x a) (remove Nat.eq_dec x lk) out -> tt_ s' = tt_ s -> mm s' = mdel (mm s) x -> Q tt s') ->
  wp (c_erase L x) Q E s.
Proof.
  intros G Ix K. unfold c_erase. apply wp_bind, wp_dec, wp_bind.
  eapply wp_conseq; [eapply (o_extract O) with (a := a)| |easy].
  - apply (o_repc O), G.
  - rewrite (o_cc O), (d_cnt G). eapply Forall_impl; [|apply (i_perm (d_inv G))]. intros l P. splits.
    + eapply NoDup_perm; [symmetry; exact P|apply (i_nd (d_inv G))].
    + eapply Permutation_in; [symmetry; exact P|auto].
    + rewrite (Permutation_length P). lia.
  - intros _ s' (R' & C' & B'). rewrite (o_cc O) in C'. rewrite (o_bc O) in B'.
    assert (G' : good s' (arem S x a) (remove Nat.eq_dec x lk) (x :: out)).
    { split; auto.
      - eapply inv_mem; [|eapply els_rem; [apply (d_rep G)|apply (d_inv G)|auto]]. now rewrite B'.
      - rewrite C', (d_cnt G). assert (Ln := length_remove x (i_nd (d_inv G)) Ix). unfold node in *. lia.
      - eapply aok_mem; [|apply (odd_rem G)]. now rewrite B'.
      - rewrite B', (d_mem G). constructor. rewrite <- Permutation_middle.
        assert (P := Ix). apply in_split in P as (l1 & l2 & ->).
        rewrite remove_mid by apply (i_nd (d_inv G)). perm. }
    eapply wp_delete; [rewrite B'; apply (live_val dv (i_live (d_inv G) _ Ix))|]. apply K.
    + eapply good_del; eauto.
      * apply (o_repb O), G'.
      * apply (o_cb O).
      * now rewrite (o_bb O).
    + rewrite (o_bb O). cbn. now rewrite B'.
    + rewrite (o_bb O). cbn. now rewrite B'.
Qed.

(** [gone s s' a lk out x]: x has been removed and destroyed, everything else is as it was *)
Definition gone (s s' : St L) (a : AV S) (lk out : list node) (x : node) : Prop :=
  mm s' = mdel (mm s) x /\ good s' (arem S x a) (remove Nat.eq_dec x lk) out.

Lemma del_dec s a lk out x (Q : unit -> St L -> Prop) E :
  rep s (arem S x a) -> inv hd (bget L s) (els S a) lk -> cget L s = length lk -> aok S (vv s) (arem S x a) ->
  Permutation (map fst (mm s)) (hd :: lk ++ out) -> In x lk ->
  els S (arem S x a) = map (remove Nat.eq_dec x) (els S a) ->
  (forall s', good s' (arem S x a) (remove Nat.eq_dec x lk) out -> tt_ s' = tt_ s -> mm s' = mdel (mm s) x -> Q tt s') ->
  wp (basM L (delete_node x) ;;; dec L) Q E s.
Proof.
  intros R I C A M Ix El K. apply wp_bind.
  eapply wp_delete; [apply (live_val dv (i_live I _ Ix))|]. apply wp_dec.
  rewrite (o_cb O). set (s1 := cset L (cget L s - 1) s).
  assert (G : good s1 (arem S x a) (remove Nat.eq_dec x lk) (x :: out)).
  { unfold s1. split; rewrite ?(o_bc O), ?(o_cc O); auto.
    - now apply (o_repc O).
    - destruct I as [I1 I2 I3 I4 I5]. split; auto.
      + now apply remove_nodup.
      + rewrite El, Forall_map. eapply Forall_impl; [|exact I2]. intros l P. now apply perm_remove.
      + intros y Iy. apply in_remove in Iy. now apply I3.
    - assert (Ln := length_remove x (i_nd I) Ix). unfold node in *. lia.
    - rewrite M. constructor. rewrite <- Permutation_middle.
      assert (P := Ix). apply in_split in P as (l1 & l2 & ->). rewrite remove_mid by apply (i_nd I). perm. }
  apply K.
  - eapply good_del; [exact G|..].
    + apply (o_repc O), (o_repb O). exact R.
    + unfold s1. now rewrite !(o_cc O).
    + rewrite (o_bc O), (o_bb O). unfold s1. rewrite (o_bc O). reflexivity.
  - now rewrite (o_bc O), (o_bb O).
  - now rewrite (o_bc O), (o_bb O).
Qed.

Lemma vals_mem (b b' : bst V) : mem b' = mem b -> val b' = val b.
Proof. intros M. unfold Layer.val. now rewrite M. Qed.
Lemma mdel_mset_ x w (m : list (node * option V)) m1 m2 : m1 = mset m x (Some w) -> m2 = mdel m1 x -> m2 = mdel m x.
Proof. intros -> ->. apply mdel_mset. Qed.

(** the element could not stay: it is destroyed after having been unlinked everywhere *)
Lemma unlinked_del s1 s2 a lk out x (Q : unit -> St L -> Prop) E :
  odd s1 a lk out x -> In x lk ->
  rep s2 (arem S x a) -> cget L s2 = cget L s1 -> mm s2 = mm s1 ->
  (forall s', good s' (arem S x a) (remove Nat.eq_dec x lk) out -> tt_ s' = tt_ s2 -> mm s' = mdel (mm s1) x -> Q tt s') ->
  wp (basM L (delete_node x) ;;; dec L) Q E s2.
Proof.
  intros D Ix R C M K. eapply del_dec; eauto.
  - eapply inv_mem; [symmetry; exact M|apply D].
  - rewrite C. apply D.
  - eapply aok_mem; [exact M|apply (odd_rem D)].
  - rewrite M. apply D.
  - apply (o_elrem O _ _ x (d_rep D)).
  - intros s' G' T' M'. apply K; auto. congruence.
Qed.

Theorem modify_spec s a lk out f fx x :
  good s a lk out -> In x lk ->
  wp (c_modify throws L f fx x)
     (fun r s' => quiet (tt_ s) (tt_ s') /\
        if r : bool then
          mm s' = mset (mm s) x (Some (f (vv s x))) /\
          (forall y, In y lk -> y <> x -> ~ aconf S (f (vv s x)) (vv s y)) /\
          exists a', good s' a' lk out /\ amov S (vv s') x a a'
        else gone s s' a lk out x /\ exists y, In y lk /\ y <> x /\ aconf S (f (vv s x)) (vv s y))
     (fun s' => blown (tt_ s) (tt_ s') /\ gone s s' a lk out x) s.
Proof.
  intros G Ix. unfold c_modify. apply wp_bind, wp_try.
  eapply wp_conseq; [apply (apply_spec (x := x) f fx (good_odd x G) Ix)| |].
  - intros _ s1 (Q1 & M1 & D1 & V1). apply wp_try, wp_bind.
    assert (VO : forall y, y <> x -> vv s1 y = vv s y) by (intros y N; eapply val_mset; eauto).
    eapply wp_conseq; [eapply (o_modify O) with (a := a); eauto; apply D1| |].
    + intros [|] s2 (C2 & Q2 & M2 & R).
      * apply wp_ret. split; [eapply quiet_trans; eauto|]. destruct R as (NC & a' & R & A & Ok). splits.
        -- congruence.
        -- intros y Iy Ny. rewrite <- V1, <- VO by auto. auto.
        -- exists a'. assert (VE := vals_mem _ _ M2). rewrite <- VE in A, Ok. split; auto. split; auto.
           ++ eapply inv_mem; [symmetry; exact M2|]. eapply mov_inv with (b := bget L s1); eauto; apply D1.
           ++ rewrite C2. apply D1.
           ++ rewrite M2. apply D1.
      * destruct R as (R & y & Iy & Ny & Cf). apply wp_assoc. apply wp_bind.
        eapply unlinked_del; eauto. intros s3 G3 T3 M3. apply wp_ret. rewrite T3. split; [eapply quiet_trans; eauto|].
        split; [split; auto; eapply mdel_mset_; eauto|].
        exists y. splits; auto. rewrite <- V1, <- VO by auto. auto.
    + intros s2 (R & C2 & M2 & B2). apply wp_assoc, wp_bind. eapply unlinked_del; eauto.
      intros s3 G3 T3 M3. apply wp_throw. rewrite T3. split; [eapply blown_trans; eauto|].
      split; auto. eapply mdel_mset_; eauto.
  - intros s1 (B1 & M1 & D1 & V1). apply wp_bind. eapply erase_odd; eauto. intros s2 G2 T2 M2. apply wp_throw.
    rewrite T2. split; auto. split; auto. eapply mdel_mset_; eauto.
Qed.

(** ** modify with rollback *)

(** the arrangement of the indices is right with [w] as the value of [x] *)
Definition fits (s : St L) (a : AV S) (x : node) (w : V) : Prop :=
  aok S (fun y => if y =? x then w else vv s y) a.

Lemma fits_same s a lk out x : good s a lk out -> fits s a x (vv s x).
Proof.
  intros G. eapply (o_ext O); [apply (g_ok G)|]. intros y l _ _. cbn. now destruct (Nat.eqb_spec y x) as [->|].
Qed.

(** back and check_rollback_ *)
Lemma back_spec s s1 a lk out x w g gx (Q : unit -> St L -> Prop) E :
  good s a lk out -> odd s1 a lk out x -> In x lk -> mm s1 = mset (mm s) x (Some w) ->
  (forall s2, tt_ s1 <= tt_ s2 -> mm s2 = mset (mm s) x (Some (g w)) -> good s2 a lk out -> fits s a x (g w) ->
     quiet (tt_ s1) (tt_ s2) -> Q tt s2) ->
  (forall s2, tt_ s1 <= tt_ s2 -> mm s2 = mset (mm s) x (Some (g w)) -> odd s2 a lk out x -> ~ fits s a x (g w) ->
     quiet (tt_ s1) (tt_ s2) -> wp (c_erase L x) Q E s2) ->
  (forall s2 u, mm s2 = mset (mm s) x (Some u) -> odd s2 a lk out x -> blown (tt_ s1) (tt_ s2) -> E s2) ->
  wp (basM L (apply_mod throws g gx x) ;;; c <- l_check_rb L x ;; (if c : bool then ret tt else c_erase L x)) Q E s1.
Proof.
  intros G D1 Ix M1 K1 K2 K3. apply wp_bind.
  assert (V1 : vv s1 x = w).
  { unfold Layer.val. rewrite M1, look_mset, Nat.eqb_refl. now rewrite (good_val x G Ix). }
  eapply wp_conseq; [apply (apply_spec (x := x) g gx D1 Ix)| |].
  - intros _ s2 (Q2 & M2 & D2 & V2). rewrite M1, mset_mset, V1 in M2. rewrite V1 in V2.
    assert (F : (aok S (vv s2) a -> fits s a x (g w)) /\ (fits s a x (g w) -> aok S (vv s2) a)).
    { assert (VE : forall y, vv s2 y = if y =? x then g w else vv s y).
      { intros y. destruct (Nat.eqb_spec y x) as [->|N]; [auto|]. eapply val_mset; eauto. }
      split; intros A; (eapply (o_ext O); [exact A|]); intros y l _ _; cbn; auto. }
    apply wp_bind. eapply wp_conseq; [eapply (o_check_rb O) with (a := a); eauto; apply D2| |].
    + intros c s3 (R3 & C3 & Q3 & M3 & T3 & F3).
      assert (QQ : quiet (tt_ s1) (tt_ s3)) by (eapply quiet_trans; eauto).
      assert (D3 : odd s3 a lk out x) by (eapply odd_same; eauto).
      assert (LE : tt_ s1 <= tt_ s3) by apply QQ.
      destruct c.
      * apply wp_ret. apply K1; auto; [congruence| |tauto]. eapply odd_good; eauto. eapply aok_mem; eauto.
      * apply K2; auto; [congruence|]. intros X. apply F in X. apply F3 in X. easy.
    + intros s3 (R3 & C3 & M3 & B3). eapply K3; [rewrite M3; eauto|eapply odd_same; eauto|]. eapply blown_trans; eauto.
  - intros s2 (B2 & M2 & D2 & V2). rewrite M1, mset_mset in M2. eapply K3; eauto.
Qed.

Theorem modify_rb_spec s a lk out f fx g gx x :
  good s a lk out -> In x lk ->
  let w := g (f (vv s x)) in
  fits s a x w \/ (forall i, tt_ s <= i -> throws i = false) ->
  wp (c_modify_rb throws L f fx g gx x)
     (fun r s' => quiet (tt_ s) (tt_ s') /\
        if r : bool then
          mm s' = mset (mm s) x (Some (f (vv s x))) /\
          (forall y, In y lk -> y <> x -> ~ aconf S (f (vv s x)) (vv s y)) /\
          exists a', good s' a' lk out /\ amov S (vv s') x a a'
        else
          (exists y, In y lk /\ y <> x /\ aconf S (f (vv s x)) (vv s y)) /\
          ((fits s a x w /\ mm s' = mset (mm s) x (Some w) /\ good s' a lk out) \/
           (~ fits s a x w /\ gone s s' a lk out x)))
     (fun s' => tt_ s < tt_ s' /\ (exists i, tt_ s <= i < tt_ s' /\ throws i = true) /\ gone s s' a lk out x) s.
Proof.
  intros G Ix w FT. unfold c_modify_rb. apply wp_bind, wp_try.
  assert (BL : forall n m, blown n m -> n < m /\ exists i, n <= i < m /\ throws i = true).
  { intros n m (i & -> & (A & B) & C). split; [lia|]. exists i. split; [lia|auto]. }
  assert (BL' : forall n m p, quiet n m -> blown m p -> n < p /\ exists i, n <= i < p /\ throws i = true).
  { intros n m p A B. apply BL. eapply blown_trans; eauto. }
  eapply wp_conseq; [apply (apply_spec (x := x) f fx (good_odd x G) Ix)| |].
  - intros _ s1 (Q1 & M1 & D1 & V1). apply wp_bind, wp_try.
    assert (VO : forall y, y <> x -> vv s1 y = vv s y) by (intros y N; eapply val_mset; eauto).
    eapply wp_conseq; [eapply (o_modify_rb O) with (a := a); eauto; apply D1| |].
    + intros [|] s2 (C2 & Q2 & M2 & R).
      * apply wp_try, wp_ret. split; [eapply quiet_trans; eauto|]. destruct R as (NC & a' & R & A & Ok). splits.
        -- congruence.
        -- intros y Iy Ny. rewrite <- V1, <- VO by auto. auto.
        -- exists a'. assert (VE := vals_mem _ _ M2). rewrite <- VE in A, Ok. split; auto. split; auto.
           ++ eapply inv_mem; [symmetry; exact M2|]. eapply mov_inv with (b := bget L s1); eauto; apply D1.
           ++ rewrite C2. apply D1.
           ++ rewrite M2. apply D1.
      * destruct R as (R & y & Iy & Ny & Cf). rewrite V1, VO in Cf by auto.
        assert (D2 : odd s2 a lk out x) by (eapply odd_same; eauto).
        assert (QQ : quiet (tt_ s) (tt_ s2)) by (eapply quiet_trans; eauto).
        apply wp_try. apply wp_assoc3. apply wp_bind.
        eapply back_spec with (s := s) (w := f (vv s x)); eauto; [congruence|..]; fold w.
        -- intros s3 _ M3 G3 F3 Q3. apply wp_ret. split; [eapply quiet_trans; eauto|]. split; [eauto|]. left. auto.
        -- intros s3 _ M3 D3 F3 Q3. eapply erase_odd; eauto. intros s4 G4 T4 M4. apply wp_ret. rewrite T4.
           split; [eapply quiet_trans; eauto|]. split; [eauto|]. right. split; auto. split; auto. eapply mdel_mset_; eauto.
        -- intros s3 u M3 D3 B3. apply wp_bind. eapply erase_odd; eauto. intros s4 G4 T4 M4. apply wp_throw. rewrite T4.
           destruct (BL' _ _ _ QQ B3) as (X1 & X2). splits; auto. split; auto. eapply mdel_mset_; eauto.
    + intros s2 (R & C2 & M2 & B2). apply wp_try.
      assert (D2 : odd s2 a lk out x) by (eapply odd_same; eauto).
      destruct (BL' _ _ _ Q1 B2) as (X1 & i & X2 & X3).
      apply wp_assoc3. apply wp_bind.
      eapply back_spec with (s := s) (w := f (vv s x)); eauto; [congruence|..]; fold w.
      * intros s3 T3 M3 G3 F3 Q3. apply wp_throw. apply wp_bind. eapply erase_odd; [apply (good_odd x G3)|auto|].
        intros s4 G4 T4 M4. apply wp_throw. rewrite T4. splits; [lia| |split; auto; eapply mdel_mset_; eauto].
        exists i. split; auto. lia.
      * intros s3 T3 M3 D3 F3 Q3. exfalso. destruct FT as [FT|FT]; [now apply F3|]. rewrite FT in X3; [easy|lia].
      * intros s3 u M3 D3 B3. apply wp_bind. eapply erase_odd; eauto. intros s4 G4 T4 M4. apply wp_throw. rewrite T4.
        destruct (BL _ _ B3) as (Y1 & Y2). splits; [lia| |split; auto; eapply mdel_mset_; eauto].
        exists i. split; auto. lia.
  - intros s1 (B1 & M1 & D1 & V1). apply wp_bind. eapply erase_odd; eauto. intros s2 G2 T2 M2. apply wp_throw.
    rewrite T2. destruct (BL _ _ B1) as (Y1 & Y2). splits; auto. split; auto. eapply mdel_mset_; eauto.
Qed.
End C.
