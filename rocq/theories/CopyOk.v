(** Copy construction of containers. *)
From Verif Require Import Prelude SeqModel SeqHeap OrdModel OrdTree OrdHeap OrdTrav Layer LayerBase
  OrdIdx OrdSpec OrdLook OrdPoint OrdLayer OrdOk PosIdx PosOk SeqIdx RndModel RndProofs RndIdx Stack View Container ContOk Iops History ContSpec Client Transfer Conv Pair Copy CopyOrd CopyPos CopyHash.
From Verif Require HashModel HashIdx HashHeap HashLay HashOps HashSpec HashRehash HashOk.
Set Implicit Arguments.

(** ** arrangements of the copies *)
Lemma ss_map {A B} (R : A -> A -> Prop) (R' : B -> B -> Prop) (f : A -> B) l :
  (forall x y, In x l -> In y l -> R x y -> R' (f x) (f y)) -> StronglySorted R l -> StronglySorted R' (List.map f l).
Proof.
  intros H S. induction S as [|x l S IH F]; cbn; constructor.
  - apply IH. intros. apply H; cbn; auto.
  - rewrite Forall_map. rewrite Forall_forall in *. intros y I. apply H; cbn; auto.
Qed.
Lemma split_map f g : HashOps.split (List.map f g) = List.map (List.map f) (HashOps.split g).
Proof. unfold HashOps.split. rewrite map_length. destruct (length g <=? 2); cbn; auto. now rewrite !map_map. Qed.
Lemma resplit_map f i g : HashOps.resplit i (List.map f g) = imap f (HashOps.resplit i g).
Proof. unfold HashOps.resplit, imap. rewrite split_map, !map_map. reflexivity. Qed.
Lemma flat_imap f G : HashSpec.flat (imap f G) = imap f (HashSpec.flat G).
Proof.
  induction G as [|(i, g) G IH]; auto. cbn [imap List.map]. fold (imap f G). rewrite !HashSpec.flat_cons, IH. cbn [fst snd].
  rewrite resplit_map. unfold imap. now rewrite map_app.
Qed.
Lemma fop_map {A B} (R : A -> A -> Prop) (R' : B -> B -> Prop) (f : A -> B) l :
  (forall x y, In x l -> In y l -> R x y -> R' (f x) (f y)) -> ForallOrdPairs R l -> ForallOrdPairs R' (List.map f l).
Proof.
  intros H S. induction S as [|x l F S IH]; cbn; constructor.
  - rewrite Forall_map. rewrite Forall_forall in *. intros y I. apply H; cbn; auto.
  - apply IH. intros. apply H; cbn; auto.
Qed.
Lemma hok_map V K (key : V -> K) eq hash uniq f (vl vl' : node -> V) a : HashSpec.hok key eq hash uniq vl a ->
  (forall y, In y (HashLay.elems (snd a)) -> vl' (f y) = vl y) -> HashSpec.hok key eq hash uniq vl' (fst a, imap f (snd a)).
Proof.
  intros (G & Ef & Fc & Fo) E. destruct a as (n, J). cbn [fst snd] in *. subst J. rewrite HashSpec.elems_flat in E.
  assert (EG : forall c y, In c G -> In y (snd c) -> vl' (f y) = vl y).
  { intros c y Ic Iy. apply E. apply HashSpec.in_elems. eauto. }
  exists (imap f G). cbn [fst snd]. split; [now rewrite flat_imap|split].
  - unfold imap. rewrite Forall_map. rewrite Forall_forall in *. intros c Ic. destruct (Fc c Ic) as (A & B & C & D). unfold HashSpec.class. cbn [fst snd].
    splits.
    + destruct (snd c); [easy|discriminate].
    + intros y Iy. apply in_map_iff in Iy as (z & <- & Iz). rewrite (EG c z Ic Iz). auto.
    + intros y z Iy Iz. apply in_map_iff in Iy as (y' & <- & Iy). apply in_map_iff in Iz as (z' & <- & Iz). rewrite (EG c y' Ic Iy), (EG c z' Ic Iz). auto.
    + intros U. rewrite map_length. auto.
  - eapply fop_map; [|exact Fo]. intros c d Ic Id H y z Iy Iz. cbn [fst snd] in *.
    apply in_map_iff in Iy as (y' & <- & Iy). apply in_map_iff in Iz as (z' & <- & Iz). rewrite (EG c y' Ic Iy), (EG d z' Id Iz). auto.
Qed.

Section Copy.
Variable V : Type.
Variable throws : nat -> bool.
Variable pick : list node -> node.
Variable dv : V.
Variables hs hd : node.
Notation S0 h cs := (spec h (fun _ (_ : unit) => False) (fun _ a => a) cs).
Notation rep0 h cs := (srep throws pick h (mem_world V) (fun _ (_ : unit) => True) (fun _ _ => False) (fun _ a => a) cs).
Notation stacks := (stack throws pick hs (mem_world V)).
Notation stackd := (stack throws pick hd (mem_world V)).

Definition kmap (f : node -> node) (c : code V) : kv (kind_of hs c) -> kv (kind_of hd c) :=
  match c return kv (kind_of hs c) -> kv (kind_of hd c) with
  | Ordered _ _ _ _ _ => List.map f
  | Sequenced _ _ _ => List.map f
  | RandomAccess _ _ => List.map f
  | Hashed _ _ _ _ _ _ _ => fun a => (fst a, imap f (snd a))
  end.
Fixpoint amap (f : node -> node) (cs : list (code V)) : AV (S0 hs cs) -> AV (S0 hd cs) :=
  match cs return AV (S0 hs cs) -> AV (S0 hd cs) with
  | [] => fun a => a
  | c :: cs => fun a => (kmap f c (fst a), amap f cs (snd a))
  end.
Lemma amap_els f cs a : els (S0 hd cs) (amap f cs a) = List.map (List.map f) (els (S0 hs cs) a).
Proof.
  induction cs as [|c cs IH]; [reflexivity|]. cbn in *. rewrite IH. f_equal. destruct c; cbn; auto. destruct a as ((n, J), a). apply imap_elems.
Qed.
Lemma amap_ok f cs vl vl' a : aok (S0 hs cs) vl a -> (forall l y, In l (els (S0 hs cs) a) -> In y l -> vl' (f y) = vl y) ->
  aok (S0 hd cs) vl' (amap f cs a).
Proof.
  induction cs as [|c cs IH]; [easy|]. cbn. intros (A & B) E. split; [|apply IH; eauto].
  assert (E' := fun y => E _ y (or_introl eq_refl)). destruct c; cbn in *; auto.
  - eapply ss_map; [|exact A]. intros y z Iy Iz. cbn beta. now rewrite !E'.
  - now apply hok_map with (vl := vl).
Qed.

(** ** copy_ *)
Lemma blank_get n w cs s : bget (stackd cs) (blank throws pick hs hd n w cs s) = w.
Proof. induction cs as [|c cs IH]; [reflexivity|]. destruct c; cbn in *; apply IH. Qed.

Section Links.
Variable mfind : node -> option node.
Variable m : cmap.
Variable f : node -> node.
Variable lk : list node.
Hypothesis C : copying mfind m f hs hd lk.

Lemma copy_ok w cs : forall s a, rep0 hs cs s a -> Forall (fun l => Permutation l lk) (els (S0 hs cs) a) ->
  wp (copy_ throws pick hs hd mfind m (length lk) cs s) (fun _ d => rep0 hd cs d (amap f cs a) /\ bget (stackd cs) d = w) (fun _ => False)
     (blank throws pick hs hd (length lk) w cs s).
Proof.
  induction cs as [|c cs IH]; intros s a R F.
  - cbn. auto.
  - cbn in F. inversion F as [|? ? P F']; subst. destruct c; cbn in s, a, R, P; destruct R as (R & R'); cbn [copy_ blank]; apply wp_bind; apply wp_own.
    + destruct R as (t & sz & T & B & E). eapply wp_conseq.
      * eapply (@o_copy_ok mfind m f hs hd lk C rk junk _ t); eauto; [now rewrite E|]. cbn. now rewrite Nat.eqb_refl.
      * intros [] g H. apply wp_sup. eapply wp_conseq; [apply (IH _ _ R' F')| |auto].
        intros [] d (Rd & Wd). cbn. split; auto. split; auto. rewrite E in H. exact H.
      * auto.
    + eapply wp_conseq.
      * eapply (@q_copy_ok mfind m f hs hd lk C jn jp); [exact R|exact P|]. unfold alloc. cbn. rewrite Nat.eqb_refl. eauto.
      * intros [] g H. apply wp_sup. eapply wp_conseq; [apply (IH _ _ R' F')| |auto].
        intros [] d (Rd & Wd). cbn. split; auto. split; auto.
      * auto.
    + eapply wp_conseq.
      * eapply (@r_copy_ok mfind m f hs hd lk C); [exact R|exact P|reflexivity..].
      * intros [] g H. apply wp_sup. eapply wp_conseq; [apply (IH _ _ R' F')| |auto].
        intros [] d (Rd & Wd). cbn. split; auto. split; auto.
      * auto.
    + destruct R as (E & T & W & U & H). destruct s as (x, s), a as ((n, J), a). cbn [fst snd] in *. apply wp_lens. cbn [HashIdx.hp].
      unfold HashRehash.tabled in T. rewrite T. eapply wp_conseq.
      * eapply (@h_copy_ok mfind m f hs hd lk C); [exact W|exact H|exact P|exact U].
      * intros [] g Hg. apply wp_sup. eapply wp_conseq; [apply (IH _ _ R' F')| |auto].
        intros [] d (Rd & Wd). cbn. split; auto. split; auto. cbn. unfold HashOk.hhas. cbn. splits; auto.
        -- eapply imap_wfi; eauto.
        -- intros X. apply imap_single. auto.
      * auto.
Qed.
End Links.

(** ** the copy map *)
Lemma cm_add_perm e m : Permutation (cm_add e m) (e :: m).
Proof. induction m as [|e' m IH]; cbn; auto. destruct (fst e <=? fst e'); auto. rewrite IH. apply perm_swap. Qed.
Lemma cm_sort_perm m : Permutation (cm_sort m) m.
Proof. induction m as [|e m IH]; cbn; auto. rewrite cm_add_perm. now apply perm_skip. Qed.
Definition e_le (e e' : node * node) : Prop := fst e <= fst e'.
Lemma cm_add_sorted e m : StronglySorted e_le m -> StronglySorted e_le (cm_add e m).
Proof.
  induction 1 as [|e' m S IH F]; cbn; [repeat constructor|]. destruct (Nat.leb_spec (fst e) (fst e')) as [L|L].
  - constructor; [now constructor|]. constructor; [exact L|]. eapply Forall_impl; [|exact F]. unfold e_le. intros; cbn in *; lia.
  - constructor; auto. rewrite Forall_forall in *. intros z I. apply (Permutation_in _ (cm_add_perm _ _)) in I. destruct I as [<-|I]; auto. unfold e_le. lia.
Qed.
Lemma cm_sort_sorted m : StronglySorted e_le (cm_sort m).
Proof. induction m as [|e m IH]; cbn; [constructor|]. now apply cm_add_sorted. Qed.
Lemma cm_find_in m x y : StronglySorted e_le m -> NoDup (List.map fst m) -> In (x, y) m -> List.find (fun e => x <=? fst e) m = Some (x, y).
Proof.
  induction 1 as [|e m S IH F]; cbn; [easy|]. intros N [->|I]; cbn.
  - now rewrite Nat.leb_refl.
  - inversion N as [|? ? N1 N2]; subst. rewrite Forall_forall in F. assert (L := F _ I). unfold e_le in L. cbn in L.
    match goal with |- context [if ?b then _ else _] => destruct b eqn:L' end; auto. apply Nat.leb_le in L'. exfalso. apply N1. apply in_map_iff. exists (x, y). split; auto. cbn. unfold node in *. lia.
Qed.

(** the copies of the nodes, given the entries *)
Definition copy_of (m : cmap) (x : node) : node :=
  if x =? null then null else if x =? hs then hd
  else match List.find (fun e : node * node => fst e =? x) m with Some e => snd e | None => null end.
Lemma copy_of_in m x y : NoDup (null :: hs :: List.map fst m) -> In (x, y) m -> copy_of m x = y.
Proof.
  intros N I. assert (J : In x (List.map fst m)) by (replace x with (fst (x, y)) by easy; now apply in_map).
  assert (N0 := N). inversion N as [|? ? N1 N2]; subst. inversion N2 as [|? ? N3 N4]; subst. unfold copy_of.
  destruct (Nat.eqb_spec x null) as [->|_]; [exfalso; apply N1; cbn; auto|]. destruct (Nat.eqb_spec x hs) as [->|_]; [easy|].
  clear - N4 I. induction m as [|e m IH]; [easy|]. cbn in *. inversion N4 as [|? ? N1 N2]; subst. destruct I as [->|I]; cbn.
  - now rewrite Nat.eqb_refl.
  - destruct (Nat.eqb_spec (fst e) x) as [E|_]; auto. exfalso. apply N1. rewrite E. replace x with (fst (x, y)) by easy. now apply in_map.
Qed.
Lemma copy_of_hd m : hs <> null -> copy_of m hs = hd.
Proof. intros H. unfold copy_of. destruct (Nat.eqb_spec hs null); [easy|]. now rewrite Nat.eqb_refl. Qed.
Lemma copy_of_map m : NoDup (null :: hs :: List.map fst m) -> List.map (fun x => (x, copy_of m x)) (List.map fst m) = m.
Proof.
  intros N. rewrite map_map. rewrite <- (map_id m) at 2. apply map_ext_in. intros (x, y) I. cbn. f_equal. now apply copy_of_in.
Qed.
Lemma copying_of m m' lk : NoDup (null :: hs :: List.map fst m) -> Permutation (List.map fst m) lk -> Permutation m' m ->
  StronglySorted e_le m' -> NoDup (null :: hd :: List.map snd m) -> copying (cm_find hs hd m') m' (copy_of m) hs hd lk.
Proof.
  intros N P Pm S Nc. assert (H : hs <> null). { intros E. inversion N as [|? ? N1 _]. apply N1. now left. }
  assert (Es : List.map (copy_of m) (List.map fst m) = List.map snd m).
  { transitivity (List.map snd (List.map (fun x => (x, copy_of m x)) (List.map fst m))); [now rewrite !map_map|now rewrite copy_of_map]. }
  split.
  - intros x [<-|I]; unfold cm_find.
    + rewrite Nat.eqb_refl. now rewrite copy_of_hd.
    + assert (Ix : In x (List.map fst m)) by (eapply Permutation_in; [symmetry; exact P|exact I]).
      destruct (Nat.eqb_spec x hs) as [->|_]; [exfalso; inversion N as [|? ? _ N2]; now inversion N2|].
      apply in_map_iff in Ix as ((x', y) & E & Ie). cbn in E. subst x'. rewrite (@cm_find_in m' x y S); cbn.
      * f_equal. symmetry. now apply copy_of_in.
      * eapply NoDup_perm; [apply Permutation_map; symmetry; exact Pm|]. inversion N as [|? ? _ N2]. now inversion N2.
      * eapply Permutation_in; [symmetry; exact Pm|exact Ie].
  - now apply copy_of_hd.
  - reflexivity.
  - rewrite Pm. rewrite <- (copy_of_map _ N) at 1. now apply Permutation_map.
  - cbn [List.map]. rewrite copy_of_hd by auto. change (copy_of m null) with null.
    eapply NoDup_perm; [|exact Nc]. do 2 constructor. rewrite <- Es. now apply Permutation_map.
Qed.

(** ** cloning *)
Hypothesis pick_ok : forall l, ~ In (pick l) (null :: l).
Lemma clone_ok (b : bst V) x v : look (mem b) x = Some (Some v) ->
  wp (clone throws pick x) (fun y b' => ~ In y (null :: List.map fst (mem b)) /\ mem b' = (y, Some v) :: mem b /\ quiet throws (tk b) (tk b'))
     (fun b' => mem b' = mem b /\ blown throws (tk b) (tk b')) b.
Proof.
  intros Lk. unfold clone, allocate_node, construct_value, value, deallocate_node, tick. unfold wp, bind. cbn.
  destruct (throws (tk b)) eqn:T1; cbn; [split; auto; now apply blown_S|].
  assert (NP := @pick_ok (List.map fst (mem b))). set (y := pick (List.map fst (mem b))) in *.
  unfold try_catch. cbn.
  assert (Nx : x <> y). { intros ->. apply NP. right. apply look_in in Lk. replace y with (fst (y, Some v)) by easy. now apply in_map. }
  destruct (Nat.eqb_spec x y) as [E|_]; [easy|]. rewrite Lk. cbn. rewrite ?Nat.eqb_refl.
  assert (Ny : ~ In y (List.map fst (mem b))) by (intros J; apply NP; now right).
  destruct (throws (S (tk b))) eqn:T2; cbn; rewrite ?Nat.eqb_refl; cbn.
  - split.
    + apply (mdel_notin (mem b) y Ny).
    + exists (S (tk b)). splits; auto. now apply quiet_S.
  - splits; auto.
    + f_equal. apply (mset_notin (mem b) y _ Ny).
    + eapply quiet_trans; apply quiet_S; auto.
Qed.
Definition without (ys : list node) (mm : list (node * option V)) := filter (fun e => negb (existsb (Nat.eqb (fst e)) ys)) mm.
Lemma without_cons y ys mm : without ys (mdel mm y) = without (y :: ys) mm.
Proof.
  unfold without, mdel. induction mm as [|(z, o) mm IH]; cbn; auto. rewrite (Nat.eqb_sym z y). destruct (y =? z); cbn; auto.
  destruct (existsb (Nat.eqb z) ys); cbn; now rewrite ?IH.
Qed.
Lemma without_id ys mm : (forall y, In y ys -> ~ In y (List.map fst mm)) -> without ys mm = mm.
Proof.
  intros H. unfold without. induction mm as [|(z, o) mm IH]; cbn; auto. destruct (existsb (Nat.eqb z) ys) eqn:E; cbn.
  - apply existsb_exists in E as (y & Iy & E). apply Nat.eqb_eq in E. subst. exfalso. apply (H y Iy). cbn. auto.
  - rewrite IH; auto. intros y Iy J. apply (H y Iy). cbn. auto.
Qed.
Lemma without_all ys mm : (forall e, In e mm -> In (fst e) ys) -> without ys mm = [].
Proof.
  intros H. unfold without. induction mm as [|(z, o) mm IH]; cbn; auto.
  assert (E : existsb (Nat.eqb z) ys = true). { apply existsb_exists. exists z. split; [apply (H (z, o)); now left|apply Nat.eqb_refl]. }
  rewrite E. cbn. apply IH. intros e I. apply H. now right.
Qed.
Lemma destroy_ok (m : cmap) : forall b : bst V, NoDup (List.map snd m) -> (forall e, In e m -> exists v, look (mem b) (snd e) = Some (Some v)) ->
  destroy_copies m b = Ret tt (mkB (without (List.map snd m) (mem b)) (tk b)).
Proof.
  induction m as [|(x, y) m IH]; intros b N H.
  - cbn. rewrite without_id by easy. now destruct b.
  - cbn [destroy_copies List.map snd] in *. inversion N as [|? ? N1 N2]; subst. destruct (H (x, y) (or_introl eq_refl)) as (v & Lk). cbn in Lk.
    unfold bind, destroy_value, deallocate_node. rewrite Lk. cbn [mem tk]. rewrite look_mset, Nat.eqb_refl, Lk. rewrite mdel_mset.
    rewrite IH; auto; cbn [mem tk].
    + now rewrite without_cons.
    + intros e I. destruct (H e (or_intror I)) as (w & Lw). exists w. rewrite look_mdel. destruct (Nat.eqb_spec (snd e) y) as [E|_]; auto.
      exfalso. apply N1. rewrite <- E. now apply in_map.
Qed.
Definition clones (vl : node -> V) (m : cmap) : list (node * option V) := List.map (fun e => (snd e, Some (vl (fst e)))) (rev m).
Lemma clones_fst vl m : List.map fst (clones vl m) = rev (List.map snd m).
Proof. unfold clones. rewrite map_map. cbn. apply map_rev. Qed.
Lemma look_app m1 m2 (x : node) : look (V := V) (m1 ++ m2) x = match look m1 x with Some o => Some o | None => look m2 x end.
Proof. induction m1 as [|(y, o) m1 IH]; cbn; auto. destruct (x =? y); auto. Qed.
Lemma look_nodup (mm : list (node * option V)) x o : NoDup (List.map fst mm) -> In (x, o) mm -> look mm x = Some o.
Proof.
  induction mm as [|(y, p) mm IH]; cbn; [easy|]. intros N [E|I]; inversion N as [|? ? N1 N2]; subst.
  - injection E as -> ->. now rewrite Nat.eqb_refl.
  - destruct (Nat.eqb_spec x y) as [->|_]; auto. exfalso. apply N1. replace y with (fst (y, o)) by easy. now apply in_map.
Qed.
Lemma look_clones vl m x y : NoDup (List.map snd m) -> In (x, y) m -> look (clones vl m) y = Some (Some (vl x)).
Proof.
  intros N I. apply look_nodup.
  - rewrite clones_fst. now apply NoDup_rev.
  - unfold clones. apply in_map_iff. exists (x, y). split; auto. now apply in_rev in I.
Qed.

(** ** copy_construct_from *)
Variable cs : list (code V).
Hypothesis Ss_ : setting pick hs cs.
Hypothesis Sd_ : setting pick hd cs.
Notation boxs := (box throws pick hs cs).
Notation boxd := (box throws pick hd cs).
Notation goods := (@ContOk.good V dv hs boxs (S0 hs cs) (rep0 hs cs)).
Notation goodd := (@ContOk.good V dv hd boxd (S0 hd cs) (rep0 hd cs)).

Section Loop.
Variable s : St boxs.
Variable a : AV (S0 hs cs).
Variable lk out : list node.
Hypothesis G : goods s a lk out.
Notation vl := (val dv (bget boxs s)).
Notation mem0 := (mem (bget boxs s)).
Variable l : list node.
Hypothesis L0 : nth_error (els (S0 hs cs) a) 0 = Some l.
Notation at_ mm t := (bset boxs (mkB mm t) s).

Lemma l_perm : Permutation l lk.
Proof. assert (P := i_perm (g_inv G)). rewrite Forall_forall in P. apply P. eapply nth_error_In; eauto. Qed.
Lemma live_val x : In x lk -> look mem0 x = Some (Some (vl x)).
Proof. intros I. destruct (i_live (g_inv G) x I) as (v & E). unfold val. now rewrite E. Qed.

Lemma clone_loop_ok : forall l2 l1 m fuel t, l = l1 ++ l2 -> length l2 <= fuel -> List.map fst m = l1 ->
  NoDup (List.map snd m) -> (forall y, In y (List.map snd m) -> ~ In y (null :: List.map fst mem0)) ->
  wp (clone_loop throws pick hs cs fuel (List.hd hs l2) m)
     (fun m' s' => exists m'' t', s' = at_ (clones vl m'' ++ mem0) t' /\ List.map fst m'' = l /\ NoDup (List.map snd m'') /\
        (forall y, In y (List.map snd m'') -> ~ In y (null :: List.map fst mem0)) /\
        m' = (match l2 with [] => m | _ => cm_sort m'' end) /\ (l2 = [] -> m'' = m) /\ quiet throws t t')
     (fun s' => exists t', s' = at_ mem0 t' /\ blown throws t t')
     (at_ (clones vl m ++ mem0) t).
Proof.
  assert (Os := box_ok throws dv Ss_). assert (Gn := good_nodup G).
  induction l2 as [|x l2 IH]; intros l1 m fuel t El Lf Em Nm Fm.
  - destruct fuel; cbn [clone_loop List.hd]; rewrite Nat.eqb_refl; apply wp_ret; exists m, t; rewrite app_nil_r in El; subst l; splits; auto; apply quiet_refl.
  - destruct fuel as [|fuel]; [cbn in Lf; lia|]. cbn [clone_loop List.hd].
    assert (Ix : In x lk). { eapply Permutation_in; [exact l_perm|]. rewrite El. apply in_or_app. right. now left. }
    destruct (Nat.eqb_spec x hs) as [->|Nx].
    { exfalso. inversion Gn as [|? ? _ N2]. inversion N2 as [|? ? N3 _]. apply N3. apply in_or_app. now left. }
    apply wp_bind. apply wp_lens. rewrite (o_bb Os).
    assert (Lx : look (clones vl m ++ mem0) x = Some (Some (vl x))).
    { rewrite look_app. assert (E : look (clones vl m) x = None).
      { apply look_none. rewrite clones_fst, <- in_rev. intros J. apply (Fm x J). right. assert (Lv := live_val x Ix). apply look_in in Lv.
        replace x with (fst (x, Some (vl x))) by easy. now apply in_map. }
      rewrite E. now apply live_val. }
    apply wp_try. eapply wp_conseq; [apply (@clone_ok (mkB (clones vl m ++ mem0) t) x _ Lx)| |].
    + intros y b' (Ny & Mb & Q). rewrite (o_ss Os). cbn [mem tk] in *. destruct b' as (mb, tb). cbn [mem tk] in *. subst mb.
      rewrite map_app, clones_fst in Ny.
      assert (Ny0 : ~ In y (null :: List.map fst mem0)). { intros [J|J]; apply Ny; [now left|right; apply in_or_app; now right]. }
      assert (Nym : ~ In y (List.map snd m)). { intros J. apply Ny. right. apply in_or_app. left. now rewrite <- in_rev. }
      set (m1 := m ++ [(x, y)]). assert (Ec : (y, Some (vl x)) :: clones vl m ++ mem0 = clones vl m1 ++ mem0).
      { unfold m1, clones. rewrite rev_app_distr. reflexivity. }
      rewrite Ec. assert (Em1 : List.map fst m1 = l1 ++ [x]). { unfold m1. now rewrite map_app, Em. }
      assert (Nm1 : NoDup (List.map snd m1)).
      { unfold m1. rewrite map_app. cbn. eapply NoDup_perm; [apply Permutation_cons_append|]. now constructor. }
      assert (Fm1 : forall z, In z (List.map snd m1) -> ~ In z (null :: List.map fst mem0)).
      { intros z. unfold m1. rewrite map_app, in_app_iff. intros [J|[<-|[]]]; auto. }
      assert (Ll : length l = length lk) by apply (Permutation_length l_perm).
      assert (Lm1 : length m1 = S (length l1)). { rewrite <- (map_length fst m1), Em1, app_length. cbn. lia. }
      eapply wp_bind_ret; [reflexivity|]. unfold Layer.size. rewrite (o_cb Os), (g_cnt G).
      apply wp_bind_ret with (a := List.hd hs l2) (s' := at_ (clones vl m1 ++ mem0) tb).
      { eapply next_at_ok with (l := l1 ++ x :: l2).
        - apply (o_repb Os). exact (g_rep G).
        - eapply Forall_impl; [|exact (i_perm (g_inv G))]. intros l' P. cbv beta in P. rewrite (Permutation_length P).
          assert (Gc := g_cnt G). unfold box in Gc |- *. assert (X := o_cb Os). unfold box in X. rewrite X, Gc. lia.
        - rewrite L0. now f_equal.
        - reflexivity. }
      destruct l2 as [|x2 l2].
      * assert (E1 : length m1 = length lk). { rewrite <- Ll, El, app_length. cbn. lia. }
        apply Nat.eqb_eq in E1. rewrite E1. destruct fuel; cbn [clone_loop List.hd]; rewrite Nat.eqb_refl; apply wp_ret; exists m1, tb; splits; auto; try easy; now rewrite Em1.
      * assert (E1 : length m1 <> length lk). { rewrite <- Ll, El, app_length. cbn. lia. }
        apply Nat.eqb_neq in E1. rewrite E1. eapply wp_conseq; [apply (IH (l1 ++ [x]) m1 fuel tb)| |].
        -- rewrite <- app_assoc. exact El.
        -- cbn in *; lia.
        -- exact Em1.
        -- exact Nm1.
        -- exact Fm1.
        -- intros m' s' (m'' & t' & A1 & A2 & A3 & A4 & A5 & A6 & A7). exists m'', t'. splits; auto; [easy|]. eapply quiet_trans; eauto.
        -- intros s' (t' & A1 & A2). exists t'. split; auto. eapply blown_trans; eauto.
    + intros b' (Mb & B). cbn [mem tk] in *. apply wp_bind. destruct b' as (mb, tb). cbn [mem tk] in *. subst mb.
      unfold wp at 1. rewrite destroy_ok; cbn [mem tk]; auto.
      * apply wp_throw. rewrite (o_ss Os). exists tb. split; auto. f_equal. f_equal. unfold without. rewrite filter_app.
        change (without (List.map snd m) (clones vl m) ++ without (List.map snd m) mem0 = mem0).
        rewrite without_all, without_id; auto.
        -- intros y Iy J. apply (Fm y Iy). now right.
        -- intros e Ie. rewrite in_rev, <- (clones_fst vl m). now apply in_map.
      * intros (x', y) Ie. cbn. exists (vl x'). rewrite look_app. now rewrite (@look_clones vl m x' y Nm Ie).
Qed.
End Loop.

Lemma tick_ok (b : bst V) : wp (tick throws) (fun _ b' => mem b' = mem b /\ quiet throws (tk b) (tk b'))
  (fun b' => mem b' = mem b /\ blown throws (tk b) (tk b')) b.
Proof. unfold wp, tick. destruct (throws (tk b)) eqn:T; cbn; split; auto; [now apply blown_S|now apply quiet_S]. Qed.
Lemma ticks_ok n : forall b : bst V, wp (ticks throws n) (fun _ b' => mem b' = mem b /\ quiet throws (tk b) (tk b'))
  (fun b' => mem b' = mem b /\ blown throws (tk b) (tk b')) b.
Proof.
  induction n as [|n IH]; intros b; cbn [ticks].
  - apply wp_ret. split; auto. apply quiet_refl.
  - unfold tick, wp, bind. destruct (throws (tk b)) eqn:T; [split; auto; now apply blown_S|].
    specialize (IH (mkB (mem b) (S (tk b)))). unfold wp in IH. cbn [mem tk] in IH. assert (Q := quiet_S throws _ T).
    destruct (ticks throws n _); auto.
    + destruct IH. split; auto. eapply quiet_trans; eauto.
    + destruct IH. split; auto. eapply blown_trans; eauto.
Qed.
Lemma first_begin_ok s a : setting pick hs cs -> rep0 hs cs s a -> first_begin throws pick hs cs s = Ret (List.hd hs (List.hd [] (els (S0 hs cs) a))) s.
Proof.
  intros X. assert (N := s_index X). clear - N. destruct cs as [|c l]; [easy|]. intros R. cbn. exact (@i_begin_ok V throws pick hs c _ _ _ s a R).
Qed.

(** The copy [d] of [s]: [f] takes elements to their copies. *)
Record copied (s : St boxs) (a : AV (S0 hs cs)) (lk out : list node) (d : St boxd) (s' : St boxs) (f : node -> node) : Prop := mkCopied {
  cd_src : goods s' a lk (hd :: List.map f lk ++ out);
  cd_dst : goodd d (amap f cs a) (List.map f lk) (hs :: lk ++ out);
  cd_one : bget boxs s' = bget boxd d;
  cd_old : forall x, In x (hs :: lk ++ hd :: out) -> look (mem (bget boxs s')) x = look (mem (bget boxs s)) x;
  cd_new : forall x, In x lk -> ~ In (f x) (List.map fst (mem (bget boxs s)));
  cd_val : forall x, In x lk -> val dv (bget boxs s') (f x) = val dv (bget boxs s) x;
  cd_inj : NoDup (List.map f lk);
  cd_tk : quiet throws (tk (bget boxs s)) (tk (bget boxs s')) }.

Theorem copy_construct_ok s a lk out : goods s a lk (hd :: out) -> look (mem (bget boxs s)) hd = Some None ->
  wp (copy_construct throws pick hs hd cs)
     (fun d s' => exists f, copied s a lk out d s' f)
     (fun s' => exists t, s' = bset boxs (mkB (mem (bget boxs s)) t) s /\ blown throws (tk (bget boxs s)) t) s.
Proof.
  intros G Lh. assert (Os := box_ok throws dv Ss_). assert (Od := box_ok throws dv Sd_). unfold copy_construct.
  assert (X : forall b', mem b' = mem (bget boxs s) -> bset boxs b' s = bset boxs (mkB (mem (bget boxs s)) (tk b')) s).
  { intros (mb, tb) E. cbn in *. now rewrite E. }
  apply wp_bind. apply wp_lens. eapply wp_conseq; [apply ticks_ok| |].
  2: { intros b' (E & B). exists (tk b'). split; auto. }
  intros ? b1 (E1 & Q1). rewrite X by auto. apply wp_bind. apply wp_lens. rewrite (o_bb Os).
  eapply wp_conseq; [apply tick_ok| |].
  2: { intros b' (E & B). cbn [mem tk] in *. exists (tk b'). rewrite (o_ss Os). split; auto. eapply blown_trans; eauto. }
  intros ? b2 (E2 & Q2). cbn [mem tk] in *. rewrite (o_ss Os), X by auto. assert (Q := quiet_trans Q1 Q2). clear b1 E1 Q1 Q2.
  eapply wp_bind_ret; [reflexivity|]. unfold Layer.size. rewrite (o_cb Os), (g_cnt G).
  eapply wp_bind_ret; [apply first_begin_ok; [exact Ss_|apply (o_repb Os); exact (g_rep G)]|].
  assert (Nl := has_index Ss_ a). remember (els (S0 hs cs) a) as ls eqn:Els. destruct ls as [|l ls]; [easy|]. cbn [List.hd].
  assert (L0 : nth_error (els (S0 hs cs) a) 0 = Some l) by now rewrite <- Els.
  assert (Pl := l_perm G L0). assert (Gn := good_nodup G).
  apply wp_bind. eapply wp_conseq; [apply (@clone_loop_ok s a lk (hd :: out) G l L0 l [] []); auto| |].
  - rewrite (Permutation_length Pl). lia.
  - constructor.
  - intros m' s' (m & t & -> & Ef & Nm & Fm & Em' & El & Q3). cbn beta.
    assert (Pm : Permutation m' m /\ StronglySorted e_le m').
    { destruct l; subst m'; [rewrite El by auto; split; [auto|constructor]|]. split; [apply cm_sort_perm|apply cm_sort_sorted]. }
    destruct Pm as (Pm & Sm). set (vl := val dv (bget boxs s)) in *. set (f := copy_of m).
    assert (Nf : NoDup (null :: hs :: List.map fst m)).
    { rewrite Ef. eapply NoDup_perm with (l := null :: hs :: lk); [now do 2 constructor|].
      rewrite !NoDup_cons_iff, NoDup_app_iff in Gn. cbn in Gn. rewrite !NoDup_cons_iff. cbn. rewrite !in_app_iff in Gn. tauto. }
    assert (Mh : In hd (List.map fst (mem (bget boxs s)))). { apply look_in in Lh. replace hd with (fst (hd, @None V)) by easy. now apply in_map. }
    assert (Nd : NoDup (null :: hd :: List.map snd m)).
    { constructor; [|constructor; auto].
      - intros [E|J]; [now apply (s_hd Sd_)|]. apply (Fm _ J). now left.
      - intros J. apply (Fm _ J). now right. }
    assert (C : copying (cm_find hs hd m') m' f hs hd lk).
    { apply copying_of; auto. now rewrite Ef. }
    assert (Em : List.map f l = List.map snd m).
    { unfold f. rewrite <- Ef. transitivity (List.map snd (List.map (fun x => (x, copy_of m x)) (List.map fst m))); [now rewrite !map_map|now rewrite copy_of_map]. }
    assert (Pf : Permutation (List.map f lk) (List.map snd m)). { rewrite <- Em. apply Permutation_map. now symmetry. }
    set (b' := mkB (clones vl m ++ mem (bget boxs s)) t).
    assert (Old : forall x, In x (List.map fst (mem (bget boxs s))) -> look (mem b') x = look (mem (bget boxs s)) x).
    { intros x J. cbn [b' mem]. rewrite look_app. assert (E : look (clones vl m) x = None).
      { apply look_none. rewrite clones_fst, <- in_rev. intros J'. apply (Fm x J'). now right. }
      now rewrite E. }
    assert (Vf : forall x, In x lk -> look (mem b') (f x) = Some (Some (vl x))).
    { intros x I. cbn [b' mem]. rewrite look_app. rewrite (@look_clones vl m x (f x)); auto.
      eapply Permutation_in; [exact Pm|]. eapply cp_map_in; eauto. }
    assert (Mf : forall x, In x lk -> In x (List.map fst (mem (bget boxs s)))).
    { intros x I. assert (Lv := live_val G x I). apply look_in in Lv. replace x with (fst (x, Some (val dv (bget boxs s) x))) by easy. now apply in_map. }
    assert (Ns : NoDup (null :: List.map fst (mem b'))).
    { cbn [b' mem]. rewrite map_app, clones_fst. assert (N0 := i_mem (g_inv G)). inversion N0 as [|? ? N1 N2]; subst. constructor.
      - rewrite in_app_iff, <- in_rev. intros [J|J]; auto. apply (Fm _ J). now left.
      - apply NoDup_app_iff. splits; auto; [now apply NoDup_rev|]. intros y. rewrite <- in_rev. intros J J'. apply (Fm _ J). now right. }
    assert (Ps : Permutation (List.map fst (mem b')) (hs :: lk ++ hd :: List.map f lk ++ out)).
    { cbn [b' mem]. rewrite map_app, clones_fst, <- Permutation_rev, <- Pf, (g_mem G). perm. }
    assert (Rs := o_repb Os b' _ _ (g_rep G)). assert (PL := i_perm (g_inv G)).
    assert (W := @copy_ok (cm_find hs hd m') m' f lk C b' cs (bset boxs b' s) a Rs PL).
    unfold wp in W |- *. change (bget boxs (bset boxs b' s)) with (bget boxs (bset boxs b' s)). rewrite (o_bb Os).
    destruct (copy_ _ _ _ _ _ _ _ _ _ _) as [u d|d|]; [|easy|easy]. destruct W as (Rd & Bd).
    exists f. split.
    + split.
      * exact Rs.
      * rewrite (o_bb Os). destruct (g_inv G) as [I1 I2 I3 I4 I5]. split; auto.
        -- intros x I. destruct (I3 x I) as (v & Lv). exists v. rewrite Old; auto.
        -- rewrite Old; auto. eapply Permutation_in; [symmetry; exact (g_mem G)|now left].
      * rewrite (o_cb Os). apply (g_cnt G).
      * rewrite (o_bb Os). eapply (o_ext Os); [exact (g_ok G)|]. intros x l' Il Ix. unfold val. rewrite Old; auto. apply Mf.
        rewrite Forall_forall in PL. eapply Permutation_in; [apply PL; exact Il|exact Ix].
      * rewrite (o_bb Os). exact Ps.
    + assert (Bd' : bget boxd (cset boxd (length lk) d) = b') by (rewrite (o_bc Od); exact Bd). split.
      * apply (o_repc Od). exact Rd.
      * rewrite Bd'. split; auto.
        -- eapply NoDup_perm; [symmetry; exact Pf|exact Nm].
        -- rewrite amap_els. rewrite Forall_map. eapply Forall_impl; [|exact PL]. intros l' P. now apply Permutation_map.
        -- intros y J. apply in_map_iff in J as (x & <- & I). exists (vl x). auto.
        -- rewrite Old; auto.
      * rewrite (o_cc Od). now rewrite map_length.
      * rewrite Bd'. eapply amap_ok; [exact (g_ok G)|]. intros l' y Il Iy. unfold val at 1. rewrite Vf; auto.
        rewrite Forall_forall in PL. eapply Permutation_in; [apply PL; exact Il|exact Iy].
      * rewrite Bd'. rewrite Ps. perm.
    + rewrite (o_bb Os). rewrite (o_bc Od). symmetry. exact Bd.
    + intros x J. rewrite (o_bb Os). apply Old. eapply Permutation_in; [symmetry; exact (g_mem G)|exact J].
    + intros x I J. apply (Fm (f x)); [|now right]. eapply Permutation_in; [exact Pf|]. now apply in_map.
    + intros x I. rewrite (o_bb Os). unfold val at 1. now rewrite Vf.
    + eapply NoDup_perm; [symmetry; exact Pf|exact Nm].
    + rewrite (o_bb Os). cbn [b' tk]. eapply quiet_trans; eauto.
  - intros s' (t & -> & B). exists t. split; auto. eapply blown_trans; eauto.
Qed.
End Copy.
