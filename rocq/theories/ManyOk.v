(** Proofs about programs with any number of containers. *)
From Verif Require Import Prelude Layer LayerBase Stack View Container ContOk Iops History ContSpec Client Transfer Conv Pair Copy CopyOk Focus Many.
Set Implicit Arguments.

(** ** lists *)
Lemma perm_at {A} (e : A) : forall k l, nth_error l k = Some e -> Permutation l (e :: remove_nth k l).
Proof.
  intros k l. revert k. induction l as [|y l IH]; intros [|k] H; try easy; cbn in *.
  - injection H as ->. reflexivity.
  - rewrite (IH _ H) at 1. apply perm_swap.
Qed.
Lemma perm_set {A} (e e' : A) : forall k l, nth_error l k = Some e -> Permutation (set_nth k e' l) (e' :: remove_nth k l).
Proof.
  intros k l. revert k. induction l as [|y l IH]; intros [|k] H; try easy; cbn in *.
  rewrite (IH _ H). apply perm_swap.
Qed.
Lemma remove_map {A B} (f : A -> B) : forall k l, remove_nth k (map f l) = map f (remove_nth k l).
Proof. intros k l. revert k. induction l as [|y l IH]; intros [|k]; cbn; auto. now rewrite IH. Qed.
Lemma nth_remove {A} k j (l : list A) : j <> k -> forall e, nth_error l j = Some e -> In e (remove_nth k l).
Proof.
  revert k j. induction l as [|y l IH]; intros [|k] [|j] N e H; try easy; cbn in *.
  - eapply nth_error_In; eauto.
  - left. congruence.
  - right. eapply IH; [|exact H]. congruence.
Qed.
Lemma perm_two {A} (x y : A) : forall k l es, k <> l -> nth_error es k = Some x -> nth_error es l = Some y ->
  exists rest, Permutation es (x :: y :: rest) /\
    (forall (f : A -> A) x' y', Permutation (set_nth l y' (set_nth k x' (map f es))) (x' :: y' :: map f rest)) /\
    (forall j e, j <> k -> j <> l -> nth_error es j = Some e -> In e rest).
Proof.
  intros k l es. revert k l. induction es as [|e es IH]; intros [|k] [|l] N H1 H2; try easy; cbn in *.
  - injection H1 as ->. exists (remove_nth l es). splits.
    + constructor. now apply perm_at.
    + intros f x' y'. constructor. rewrite (@perm_set _ (f y) y'); [now rewrite remove_map|]. now rewrite nth_error_map, H2.
    + intros [|j] e N1 N2 H; [easy|]. apply (@nth_remove _ l j); auto.
  - injection H2 as ->. exists (remove_nth k es). splits.
    + rewrite perm_swap. constructor. now apply perm_at.
    + intros f x' y'. rewrite perm_swap. constructor. rewrite (@perm_set _ (f x) x'); [now rewrite remove_map|]. now rewrite nth_error_map, H1.
    + intros [|j] e N1 N2 H; [easy|]. apply (@nth_remove _ k j); auto.
  - destruct (IH k l) as (rest & P & Q & R); auto. exists (e :: rest). splits.
    + rewrite P. exact (Permutation_middle [x; y] rest e).
    + intros f x' y'. cbn. rewrite Q. exact (Permutation_middle [x'; y'] (map f rest) (f e)).
    + intros [|j] e' N1 N2 H; [left; cbn in H; congruence|]. right. apply (R j); auto.
Qed.
Lemma nth_set {A} (x : A) : forall k j l, j <> k -> nth_error (set_nth k x l) j = nth_error l j.
Proof. intros k j l. revert k j. induction l as [|y l IH]; intros [|k] [|j] N; cbn; auto; try easy. Qed.


Lemma perm_swaps {A} (x y : A) k l es : nth_error es k = Some x -> nth_error es l = Some y -> Permutation (set_nth k y (set_nth l x es)) es.
Proof.
  intros Hx Hy. destruct (Nat.eq_dec k l) as [->|N].
  - assert (x = y) as -> by congruence. now rewrite set_nth_twice, set_nth_id.
  - destruct (perm_two es (not_eq_sym N) Hy Hx) as (rest & P & Q & _). specialize (Q (fun z => z) x y). rewrite !map_id in Q.
    rewrite Q, P. apply perm_swap.
Qed.
Lemma nth_swap {A} (x y : A) k l j es : nth_error es k = Some x -> nth_error es l = Some y ->
  nth_error (set_nth k y (set_nth l x es)) j = if j =? k then Some y else if j =? l then Some x else nth_error es j.
Proof.
  intros Hx Hy. assert (Lk : k < length es) by (apply nth_error_Some; congruence). assert (Ll : l < length es) by (apply nth_error_Some; congruence).
  destruct (Nat.eqb_spec j k) as [->|N]; [apply set_nth_at; now rewrite set_nth_len|]. rewrite nth_set by auto.
  destruct (Nat.eqb_spec j l) as [->|N']; [now apply set_nth_at|now apply nth_set].
Qed.
Lemma nth_gone {A} (l : list A) : forall k j, nth_error (remove_nth k l) j = nth_error l (if j <? k then j else S j).
Proof.
  induction l as [|y l IH]; intros [|k] [|j]; cbn [remove_nth nth_error]; auto.
  - now destruct (S j <? S k).
  - rewrite IH. change (S j <? S k) with (j <? k). now destruct (j <? k).
Qed.

Section Many.
Variable V : Type.
Variable throws : nat -> bool.
Variable pick : list node -> node.
Variable dv : V.
Variable mlf1 : HashIdx.policy.
Hypothesis pick_ok : forall l, ~ In (pick l) (null :: l).
Notation box := (box throws pick).
Notation obj := (obj V throws pick).
Notation world := (world V throws pick).
Notation S0 h cs := (spec h (fun _ (_ : unit) => False) (fun _ a => a) cs).
Notation rep0 h cs := (srep throws pick h (mem_world V) (fun _ (_ : unit) => True) (fun _ _ => False) (fun _ a => a) cs).
Notation good_ h cs := (@ContOk.good V dv h (box h cs) (S0 h cs) (rep0 h cs)).
Notation look_ m x := (look (mem m) x).
Notation dom m := (map fst (mem m)).

(** what can be seen of a container *)
Definition seen (o : obj) := (oh o, oc o, oseq o, @count V throws pick (oh o) (oc o) (os o)).
Implicit Types (o : obj) (e : obj * list node) (es rest : list (obj * list node)) (m : bst V) (w : world).

Definition fine m e : Prop :=
  setting pick (oh (fst e)) (oc (fst e)) /\ omem (fst e) = m /\
  exists a out, good_ (oh (fst e)) (oc (fst e)) (os (fst e)) a (snd e) out.
Definition sync1 m e := (sync m (fst e), snd e).
Definition nodes es : list node := flat_map (fun e => oh (fst e) :: snd e) es.
Record inv m es (out : list node) : Prop := mkInv {
  v_fine : Forall (fine m) es;
  v_nd : NoDup (null :: dom m);
  v_mem : Permutation (dom m) (nodes es ++ out) }.

Lemma nodes_app es es' : nodes (es ++ es') = nodes es ++ nodes es'.
Proof. apply flat_map_app. Qed.
Lemma nodes_sync m es : nodes (map (sync1 m) es) = nodes es.
Proof. induction es as [|e es IH]; cbn; auto. unfold nodes in IH. now rewrite IH. Qed.
Lemma nodes_perm es es' : Permutation es es' -> Permutation (nodes es) (nodes es').
Proof. intros P. unfold nodes. now rewrite P. Qed.
Lemma snd_sync m es : map snd (map (sync1 m) es) = map snd es.
Proof. rewrite map_map. reflexivity. Qed.
Lemma fst_sync m es : map fst (map (sync1 m) es) = map (sync m) (map fst es).
Proof. now rewrite !map_map. Qed.
Lemma inv_perm m es es' out out' : Permutation es es' -> Permutation out out' -> inv m es out -> inv m es' out'.
Proof. intros P P' [F N M]. split; auto. - now rewrite <- P. - now rewrite <- (nodes_perm P), <- P'. Qed.

Lemma fine_good m e out : fine m e -> Permutation (dom m) (oh (fst e) :: snd e ++ out) ->
  exists a, good_ (oh (fst e)) (oc (fst e)) (os (fst e)) a (snd e) out.
Proof.
  intros (S1 & E & a & out0 & G) P. exists a. eapply good_lk; [reflexivity| |exact G].
  assert (Q := g_mem G). unfold omem in E. rewrite E, P in Q. apply Permutation_cons_inv, Permutation_app_inv_l in Q. now symmetry.
Qed.
Lemma fine_sync m m' e out : fine m e -> NoDup (null :: dom m') -> Permutation (dom m') (oh (fst e) :: snd e ++ out) ->
  (forall x, In x (oh (fst e) :: snd e) -> look_ m' x = look_ m x) -> fine m' (sync1 m' e) /\ seen (sync m' (fst e)) = seen (fst e).
Proof.
  intros (S1 & E & a & out0 & G) N P A. assert (O := box_ok throws dv S1).
  assert (G' : good_ (oh (fst e)) (oc (fst e)) (bset (box (oh (fst e)) (oc (fst e))) m' (os (fst e))) a (snd e) out).
  { eapply (good_other throws S1 m' out G); auto. intros x I. rewrite A by auto. unfold omem in E. now rewrite E. }
  split.
  - split; [exact S1|]. split; [|now exists a, out]. unfold omem, sync1, sync. cbn [fst oh oc os]. apply (o_bb O).
  - unfold seen, oseq, sync. cbn [oh oc os]. rewrite (good_views throws pick _ G), (good_views throws pick _ G').
    unfold count. now rewrite (o_cb O).
Qed.
Lemma rest_sync m m' rest out : Forall (fine m) rest -> NoDup (null :: dom m') -> Permutation (dom m') (nodes rest ++ out) ->
  (forall x, In x (nodes rest) -> look_ m' x = look_ m x) ->
  Forall (fun e => fine m' (sync1 m' e) /\ seen (sync m' (fst e)) = seen (fst e)) rest.
Proof.
  intros F N P A. apply Forall_forall. intros e I. rewrite Forall_forall in F. assert (Fe := F e I).
  apply in_split in I as (l1 & l2 & ->). eapply fine_sync with (out := nodes (l1 ++ l2) ++ out); eauto.
  - rewrite P, !nodes_app. cbn [nodes flat_map]. fold (nodes l2). perm.
  - intros x I. apply A. rewrite nodes_app. apply in_or_app. right. cbn [nodes flat_map]. apply in_or_app. now left.
Qed.
(** [es] have become [es'], the others are left alone *)
Lemma inv_step m m' es es' rest out out' : inv m (es ++ rest) out -> Forall (fine m') es' -> NoDup (null :: dom m') ->
  Permutation (dom m') (nodes es' ++ nodes rest ++ out') -> (forall x, In x (nodes rest) -> look_ m' x = look_ m x) ->
  inv m' (es' ++ map (sync1 m') rest) out' /\ Forall (fun e => seen (sync m' (fst e)) = seen (fst e)) rest.
Proof.
  intros [F N0 P0] F' N P A. apply Forall_app in F as (_ & F).
  assert (R : Forall (fun e => fine m' (sync1 m' e) /\ seen (sync m' (fst e)) = seen (fst e)) rest).
  { eapply rest_sync with (out := nodes es' ++ out'); eauto. rewrite P. perm. }
  split; [split; auto|].
  - apply Forall_app. split; auto. rewrite Forall_map. eapply Forall_impl; [|exact R]. now intros e (X & _).
  - rewrite nodes_app, nodes_sync, P. perm.
  - eapply Forall_impl; [|exact R]. now intros e (_ & X).
Qed.
(** nothing but the number of calls has changed *)
Lemma inv_calls m m' es out : inv m es out -> mem m' = mem m ->
  inv m' (map (sync1 m') es) out /\ Forall (fun e => seen (sync m' (fst e)) = seen (fst e)) es.
Proof.
  intros I E. apply (@inv_step m m' [] [] es out out I); auto; rewrite ?E; try apply I; constructor.
Qed.
Lemma inv_head m e rest out : inv m (e :: rest) out -> exists a, good_ (oh (fst e)) (oc (fst e)) (os (fst e)) a (snd e) (nodes rest ++ out).
Proof.
  intros [F N P]. inversion F as [|? ? F1 F2]; subst. eapply fine_good; eauto. rewrite P. cbn [nodes flat_map]. fold (nodes rest). perm.
Qed.

(** ** worlds *)
Definition wok w es (out : list node) : Prop := map fst es = objs w /\ inv (wm w) es out.
Lemma obj_at w es out k x : wok w es out -> nth_error (objs w) k = Some x -> exists lk, nth_error es k = Some (x, lk).
Proof.
  intros (E & _) H. rewrite <- E, nth_error_map in H. destruct (nth_error es k) as [(x', lk)|]; [|easy]. cbn in H. exists lk. congruence.
Qed.
Lemma at_obj_ w es out k e : wok w es out -> nth_error es k = Some e -> nth_error (objs w) k = Some (fst e).
Proof. intros (E & _) H. now rewrite <- E, nth_error_map, H. Qed.
Lemma wok_fine w es out k e : wok w es out -> nth_error es k = Some e -> fine (wm w) e.
Proof. intros (_ & I) H. assert (F := v_fine I). rewrite Forall_forall in F. apply F. eapply nth_error_In; eauto. Qed.
Lemma wok_good w es out k e : wok w es out -> nth_error es k = Some e ->
  exists a, good_ (oh (fst e)) (oc (fst e)) (os (fst e)) a (snd e) (nodes (remove_nth k es) ++ out).
Proof. intros (_ & I) H. apply inv_head with (m := wm w). eapply inv_perm; [apply (perm_at _ _ H)|reflexivity|exact I]. Qed.
Lemma sync_sync m e b b' : fine m e -> sync b (sync b' (fst e)) = sync b (fst e).
Proof. intros (S1 & _). assert (O := box_ok throws dv S1). unfold sync. cbn [oh oc os]. now rewrite (o_ss O). Qed.
Lemma sync_own m e : fine m e -> sync m (fst e) = fst e.
Proof.
  intros (S1 & E & _). assert (O := box_ok throws dv S1). unfold sync, omem in *. destruct (fst e) as [h c s]. cbn [oh oc os] in *.
  f_equal. rewrite <- E. apply (o_gs O).
Qed.
Lemma sync_syncs w es out b b' : wok w es out -> map (sync b) (map (sync b') (objs w)) = map (sync b) (objs w).
Proof.
  intros (<- & I). rewrite !map_map. apply map_ext_in. intros e J. assert (F := v_fine I). rewrite Forall_forall in F.
  eapply sync_sync. now apply F.
Qed.
(** what can be seen of container number [j] *)
Definition sees w (j : nat) := option_map seen (nth_error (objs w) j).
(** nothing but the number of calls has changed *)
Definition unchanged w w' : Prop := mem (wm w') = mem (wm w) /\ objs w' = map (sync (wm w')) (objs w).
Lemma unchanged_ok w w' es out : unchanged w w' -> wok w es out -> wok w' (map (sync1 (wm w')) es) out /\ forall j, sees w' j = sees w j.
Proof.
  intros (M & E) (E0 & I). destruct (@inv_calls _ (wm w') _ _ I M) as (I' & F). split; [split; auto|].
  - now rewrite fst_sync, E0, E.
  - intros j. unfold sees. rewrite E, nth_error_map, <- E0, nth_error_map. destruct (nth_error es j) as [e|] eqn:H; cbn; auto.
    rewrite Forall_forall in F. rewrite F; auto. eapply nth_error_In; eauto.
Qed.

(** an operation on number [k] *)
Lemma put_ok w es out out' k x lk s' lk' (e := (x, lk)) (x' := mkObj throws pick (oh x) (oc x) s') : wok w es out -> nth_error es k = Some e ->
  (exists a, good_ (oh x) (oc x) s' a lk' (out' ++ nodes (remove_nth k es))) ->
  (forall y, In y (nodes (remove_nth k es)) -> look_ (omem x') y = look_ (wm w) y) ->
  wok (put k x' w) (set_nth k (x', lk') (map (sync1 (omem x')) es)) out' /\ forall j, j <> k -> sees (put k x' w) j = sees w j.
Proof.
  intros (E & I) H (a & G) A. set (m' := omem x') in *.
  assert (P := perm_at _ _ H).
  assert (Iv : inv (wm w) ([e] ++ remove_nth k es) out) by (eapply inv_perm; [exact P|reflexivity|exact I]).
  assert (Sx : setting pick (oh x) (oc x)). { assert (F := v_fine Iv). inversion F as [|? ? F1 _]; subst. apply F1. }
  destruct (@inv_step (wm w) m' [e] [(x', lk')] (remove_nth k es) out out' Iv) as (I' & B).
  - constructor; [|constructor]. split; [exact Sx|]. split; [reflexivity|]. now exists a, (out' ++ nodes (remove_nth k es)).
  - apply (i_mem (g_inv G)).
  - unfold m', omem. cbn [oh oc os x']. rewrite (g_mem G). cbn [nodes flat_map fst snd x' oh]. rewrite app_nil_r. cbn. perm.
  - exact A.
  - split; [split|].
    + cbn [put objs]. fold m'. now rewrite set_nth_map, fst_sync, E.
    + cbn [put wm]. fold m'. eapply inv_perm; [|reflexivity|exact I']. symmetry. cbn [app].
      rewrite <- remove_map. eapply perm_set. rewrite nth_error_map, H. reflexivity.
    + intros j N. unfold sees. cbn [put objs]. fold m'. rewrite nth_set, nth_error_map by auto. rewrite <- E, nth_error_map.
      destruct (nth_error es j) as [e'|] eqn:H'; cbn; auto. rewrite Forall_forall in B. rewrite B; auto. eapply nth_remove; eauto.
Qed.
Lemma at_ok w es nh k x lk (q : op V (nat * iop V)) : wok w es nh -> (forall y, In y nh -> live (wm w) y) -> nth_error es k = Some (x, lk) ->
  @allowed_box V throws pick (oh x) (oc x) (os x) lk nh q ->
  let post r w' := exists es', let l := ledger q r lk nh in wok w' es' (snd l) /\ (forall y, In y (snd l) -> live (wm w') y) /\
     map snd es' = set_nth k (fst l) (map snd es) /\ (forall j, j <> k -> sees w' j = sees w j) /\
     (forall j e z, j <> k -> nth_error es j = Some e -> In z (snd e) -> look_ (wm w') z = look_ (wm w) z) in
  wp (at_obj k (fun h cs => @exec_box V throws pick h cs q)) (fun r w' => post (Some r) w') (fun w' => post None w') w.
Proof.
  intros W Lv H Al post. assert (Sx := proj1 (wok_fine _ W H)). assert (Ex := proj1 (proj2 (wok_fine _ W H))). cbn [fst] in Sx, Ex.
  destruct (wok_good _ W H) as (a & G). cbn [fst snd] in G.
  assert (Si : state_in dv (oh x) (box (oh x) (oc x)) (S0 (oh x) (oc x)) (rep0 (oh x) (oc x)) (os x) lk nh (nodes (remove_nth k es))).
  { split.
    - exists a. eapply good_lk; [reflexivity| |exact G]. perm.
    - unfold omem in Ex. rewrite Ex. exact Lv. }
  assert (X := @exec_in V throws pick dv (oh x) (box (oh x) (oc x)) _ (@run_index V throws pick (oh x) (oc x)) (@can_index V throws pick (oh x) (oc x)) pick_ok (S0 (oh x) (oc x)) (rep0 (oh x) (oc x)) _
     (box_ok throws dv Sx) (has_index Sx) (fun y a => spec_ready _ _ _ _ y a) (fun s a lk out i => @index_good V throws pick dv (oh x) (oc x) Sx s a lk out i)
     (os x) lk nh _ q Si Al).
  assert (K : forall s' r, state_in dv (oh x) (box (oh x) (oc x)) (S0 (oh x) (oc x)) (rep0 (oh x) (oc x)) s' (fst (ledger q r lk nh)) (snd (ledger q r lk nh)) (nodes (remove_nth k es)) /\
     alone (box (oh x) (oc x)) (nodes (remove_nth k es)) (os x) s' -> post r (put k (mkObj throws pick (oh x) (oc x) s') w)).
  { intros s' r ((A & Lv') & Alo). unfold omem in Ex.
    destruct (@put_ok w es nh (snd (ledger q r lk nh)) k x lk s' (fst (ledger q r lk nh)) W H A) as (W' & B).
    - intros y J. unfold omem. cbn [oh oc os]. rewrite (Alo y J). now rewrite Ex.
    - eexists. cbv zeta. splits; [exact W'|exact Lv'| |exact B|].
      + now rewrite set_nth_map, snd_sync.
      + intros j e z Nj Hj J. rewrite <- Ex. apply (Alo z). apply in_flat_map. exists e. split; [eapply nth_remove; eauto|now right]. }
  unfold wp, at_obj in *. rewrite (at_obj_ _ W H). cbn [fst]. unfold exec_box. destruct (exec _ _ _ _ _ _ _); auto.
Qed.

(** *** construction *)
Lemma on_world_ok {A} (m : M (bst V) A) Q E w : wp m Q E (wm w) ->
  wp (on_world m) (fun a w' => objs w' = map (sync (wm w')) (objs w) /\ Q a (wm w')) (fun w' => objs w' = map (sync (wm w')) (objs w) /\ E (wm w')) w.
Proof. unfold wp, on_world. destruct (m (wm w)); cbn; auto. Qed.
Definition new_node (m m' : bst V) (h : node) : Prop := ~ In h (null :: dom m) /\ mem m' = (h, None) :: mem m.
Lemma allocate_ok m : wp (allocate_node throws pick) (fun h m' => new_node m m' h /\ quiet throws (tk m) (tk m'))
  (fun m' => mem m' = mem m /\ blown throws (tk m) (tk m')) m.
Proof.
  unfold wp, allocate_node, tick, bind. destruct (throws (tk m)) eqn:T; cbn.
  - split; auto. now apply blown_S.
  - split; [|now apply quiet_S]. split; auto.
Qed.
Lemma new_nd m m' h : new_node m m' h -> NoDup (null :: dom m) -> NoDup (null :: dom m').
Proof.
  intros (N & E) D. rewrite E. cbn. inversion D as [|? ? D1 D2]; subst. cbn in N. constructor; [|constructor; tauto].
  intros [X|X]; [|tauto]. apply N. now left.
Qed.
Lemma new_look m m' h x : new_node m m' h -> In x (dom m) -> look_ m' x = look_ m x.
Proof. intros (N & E) I. rewrite E. cbn. destruct (Nat.eqb_spec x h) as [->|]; auto. exfalso. apply N. now right. Qed.
Lemma in_nodes m es out x : inv m es out -> In x (nodes es) -> In x (dom m).
Proof. intros I J. eapply Permutation_in; [symmetry; apply I|]. apply in_or_app. now left. Qed.
Lemma new_ok w es out m' h : wok w es out -> new_node (wm w) m' h ->
  inv m' (map (sync1 m') es) (h :: out) /\ Forall (fun e => seen (sync m' (fst e)) = seen (fst e)) es.
Proof.
  intros (_ & I) N. apply (@inv_step (wm w) m' [] [] es out (h :: out) I); auto.
  - eapply new_nd; [exact N|apply I].
  - destruct N as (_ & E). rewrite E. cbn. rewrite (v_mem I). perm.
  - intros x J. eapply new_look; eauto. eapply in_nodes; eauto.
Qed.
Lemma dealloc_new m m' h : new_node m m' h -> forall m2, mem m2 = mem m' -> deallocate_node h m2 = Ret tt (mkB (mem m) (tk m2)).
Proof.
  intros (N & E) m2 E2. unfold deallocate_node. rewrite E2, E. cbn [look]. rewrite Nat.eqb_refl. rewrite mdel_head; auto.
  intros J. apply N. now right.
Qed.
Definition made w w' (h : node) (cs : list (code V)) : Prop :=
  new_node (wm w) (wm w') h /\ quiet throws (tk (wm w)) (tk (wm w')) /\
  objs w' = mkObj throws pick h cs (fresh throws pick h (mem_world V) cs (wm w')) :: map (sync (wm w')) (objs w).
Definition failed w w' : Prop := unchanged w w' /\ blown throws (tk (wm w)) (tk (wm w')).
Lemma create_ok w es out cs : wok w es out ->
  wp (create cs) (fun _ w' => exists h, made w w' h cs) (fun w' => failed w w') w.
Proof.
  intros W. unfold create. apply wp_bind. eapply wp_conseq; [apply on_world_ok, allocate_ok| |]; cbn beta.
  2: { intros w' (E & M & B). split; [split|]; auto. }
  intros h w1 (E1 & N & Q1). apply wp_bind.
  assert (T := @ticks_ok V throws (list_sum (map (@allocates V) cs)) (wm w1)).
  unfold wp, on_world, try_catch. unfold wp in T. destruct (ticks throws _ (wm w1)) as [u b|b|]; [| |easy]; destruct T as (M & Q2).
  - exists h. split; [|split]; cbn [wm add objs].
    + destruct N as (N1 & N2). split; auto. now rewrite M.
    + eapply quiet_trans; eauto.
    + rewrite E1. f_equal. eapply sync_syncs; eauto.
  - unfold bind. rewrite (@dealloc_new _ _ _ N b M). cbn [throw]. split; [split|]; cbn [wm objs mem tk]; auto.
    + rewrite E1. eapply sync_syncs; eauto.
    + eapply blown_trans; eauto.
Qed.
Lemma made_ok w w' es out h cs : wok w es out -> made w w' h cs -> Forall (@code_ok V) cs -> cs <> [] ->
  let x := mkObj throws pick h cs (fresh throws pick h (mem_world V) cs (wm w')) in
  wok w' ((x, []) :: map (sync1 (wm w')) es) out /\ seen x = (h, cs, Some (map (fun _ => []) cs), 0) /\
  Forall (fun e => seen (sync (wm w') (fst e)) = seen (fst e)) es.
Proof.
  intros W (N & _ & E) C1 C2 x. destruct (new_ok W N) as (I & B).
  assert (Sx : setting pick h cs). { split; auto. destruct N as (N & _). intros ->. apply N. now left. }
  destruct (@fresh_good V throws pick dv h cs (wm w') (nodes es ++ out) Sx) as (a & G).
  - destruct N as (_ & M). rewrite M. cbn. now rewrite Nat.eqb_refl.
  - apply I.
  - rewrite (v_mem I), nodes_sync. perm.
  - splits; auto.
    + split.
      * cbn [map fst]. now rewrite fst_sync, E, (proj1 W).
      * destruct I as [F Nd P]. split; auto.
        -- constructor; auto. split; [exact Sx|]. split; [|now exists a, (nodes es ++ out)].
           cbn [fst]. unfold omem, x. cbn [oh oc os]. unfold box. now rewrite wld_get, wld_fresh.
        -- rewrite P. cbn [nodes flat_map fst snd]. fold (nodes (map (sync1 (wm w')) es)). cbn [app oh x]. perm.
    + unfold seen, oseq, x. cbn [oh oc os]. rewrite (good_views throws pick _ G). unfold count. rewrite (g_cnt G). cbn [length].
      assert (P := i_perm (g_inv G)). assert (L := spec_len h (fun _ (_ : unit) => False) (fun _ a => a) cs a).
      f_equal. f_equal. f_equal. remember (els (S0 h cs) a) as ls eqn:El. clear - P L. revert ls P L. induction cs as [|c cs' IH]; intros [|l ls] P L; try easy.
      cbn in *. inversion P as [|? ? P1 P2]; subst. apply Permutation_sym, Permutation_nil in P1. subst l. f_equal. apply IH; auto.
Qed.

(** *** copies *)
(** The copy [d], whose header is [h], of container [x] with elements [lk]; [f] takes elements to their copies. *)
Record cloned w w' (k : nat) (x : obj) (lk out : list node) es (d : obj) (f : node -> node) : Prop := mkCloned {
  cl_h : ~ In (oh d) (null :: dom (wm w));
  cl_old : forall y, In y (dom (wm w)) -> look_ (wm w') y = look_ (wm w) y;
  cl_new : forall y, In y lk -> ~ In (f y) (dom (wm w));
  cl_val : forall y, In y lk -> val dv (wm w') (f y) = val dv (wm w) y;
  cl_inj : NoDup (map f lk);
  cl_mem : Permutation (dom (wm w')) (oh d :: map f lk ++ dom (wm w));
  cl_tk : quiet throws (tk (wm w)) (tk (wm w'));
  cl_seq : forall ls, oseq x = Some ls -> seen d = (oh d, oc x, Some (map (map f) ls), length lk);
  cl_at : nth_error (objs w') 0 = Some d;
  cl_len : length (objs w') = S (length (objs w));
  cl_sees : forall j, sees w' (S j) = sees w j;
  cl_ok : exists es', wok w' ((d, map f lk) :: es') out /\ map snd es' = map snd es }.
Lemma fine_seen m e : fine m e -> exists ls, seen (fst e) = (oh (fst e), oc (fst e), Some ls, length (snd e)).
Proof. intros (S1 & E & a & out & G). eexists. unfold seen, oseq. rewrite (good_views throws pick _ G). unfold count. now rewrite (g_cnt G). Qed.
Lemma wok_add w es d lk out : wok w es (oh d :: lk ++ out) -> fine (wm w) (d, lk) -> wok (add d w) ((d, lk) :: es) out.
Proof.
  intros (E & [F N P]) Fd. split; [|split]; cbn [wm add objs]; auto.
  - cbn. now rewrite E.
  - rewrite P. cbn [nodes flat_map fst snd]. fold (nodes es). perm.
Qed.
Lemma copy_create_ok w es out k x lk : wok w es out -> nth_error es k = Some (x, lk) ->
  wp (copy_create k) (fun _ w' => exists d f, cloned w w' k x lk out es d f) (fun w' => failed w w') w.
Proof.
  intros W H. unfold copy_create. apply wp_bind. eapply wp_conseq; [apply on_world_ok, allocate_ok| |]; cbn beta.
  2: { intros w' (E & M & B). split; [split|]; auto. }
  intros h w1 (E1 & N & Q1). assert (Fx := wok_fine _ W H). assert (Hx := at_obj_ _ W H). cbn [fst] in Hx.
  destruct (new_ok W N) as (I1 & B1). set (m1 := wm w1) in *.
  assert (H1 : nth_error (objs w1) k = Some (sync m1 x)) by now rewrite E1, nth_error_map, Hx.
  assert (W1 : wok w1 (map (sync1 m1) es) (h :: out)). { split; auto. rewrite fst_sync, E1. f_equal. apply W. }
  assert (He : nth_error (map (sync1 m1) es) k = Some (sync m1 x, lk)) by now rewrite nth_error_map, H.
  destruct (wok_good _ W1 He) as (a & G). rewrite remove_map, nodes_sync in G.
  assert (Ss := proj1 (wok_fine _ W1 He)). cbn [fst snd sync oh oc] in Ss, G.
  assert (Sd : setting pick h (oc x)). { destruct Ss as [Z1 Z2 Z3 Z4]. split; auto. destruct N as (N & _). intros ->. apply N. now left. }
  assert (G1 : good_ (oh x) (oc x) (os (sync m1 x)) a lk (h :: nodes (remove_nth k es) ++ out)).
  { eapply good_lk; [reflexivity| |exact G]. perm. }
  assert (Ox := box_ok throws dv Ss). assert (Od := box_ok throws dv Sd).
  assert (Ebm : bget (box (oh x) (oc x)) (os (sync m1 x)) = m1) by (unfold sync; cbn [os]; apply (o_bb Ox)).
  assert (Lh : look_ m1 h = Some None). { destruct N as (_ & M). rewrite M. cbn. now rewrite Nat.eqb_refl. }
  assert (C := @copy_construct_ok V throws pick dv (oh x) h pick_ok (oc x) Ss Sd (os (sync m1 x)) a lk (nodes (remove_nth k es) ++ out) G1).
  rewrite Ebm in C. specialize (C Lh). unfold wp in C |- *. rewrite H1.
  change (oh (sync m1 x)) with (oh x). change (oc (sync m1 x)) with (oc x).
  destruct (copy_construct throws pick (oh x) h (oc x) (os (sync m1 x))) as [d s'|s'|]; [| |easy].
  - destruct C as (f & C). set (D := mkObj throws pick h (oc x) d). set (x' := mkObj throws pick (oh x) (oc x) s').
    exists D, f. assert (Gs := cd_src C). assert (Gd := cd_dst C).
    assert (P1 : Permutation (dom m1) (h :: dom (wm w))). { destruct N as (_ & M). now rewrite M. }
    assert (Old : forall y, In y (h :: dom (wm w)) -> look_ (omem x') y = look_ m1 y).
    { intros y J. unfold omem. cbn [oh oc os x']. rewrite (cd_old C); [now rewrite Ebm|].
      assert (P := g_mem G1). rewrite Ebm in P. eapply Permutation_in; [exact P|]. eapply Permutation_in; [symmetry; exact P1|exact J]. }
    assert (Pm : Permutation (dom (omem x')) (h :: map f lk ++ dom (wm w))).
    { assert (P2 := g_mem Gs). assert (P3 := g_mem G1). rewrite Ebm in P3. unfold omem. cbn [oh oc os x']. clear - P1 P2 P3. rewrite P1 in P3. perm. }
    destruct (@put_ok w1 (map (sync1 m1) es) (h :: out) (h :: map f lk ++ out) k (sync m1 x) lk s' lk W1 He) as (W2 & B2).
    { exists a. eapply good_lk; [reflexivity| |exact Gs]. rewrite remove_map, nodes_sync. perm. }
    { intros y J. cbn [sync oh oc]. fold x'. apply Old. rewrite remove_map, nodes_sync in J. right. eapply in_nodes; [apply W|].
      eapply Permutation_in; [symmetry; apply nodes_perm, (perm_at _ _ H)|]. cbn [nodes flat_map]. apply in_or_app. now right. }
    cbn [sync oh oc] in W2, B2. fold x' in W2, B2.
    assert (Sx : seen x' = seen x).
    { transitivity (seen (sync m1 x)).
      - unfold seen, oseq. cbn [x' sync oh oc os]. cbn [sync os] in G1. rewrite (good_views throws pick _ Gs), (good_views throws pick _ G1).
        unfold count. now rewrite (g_cnt Gs), (g_cnt G1).
      - rewrite Forall_forall in B1. apply (B1 (x, lk)). eapply nth_error_In; eauto. }
    assert (Se : forall j, sees (put k x' w1) j = sees w j).
    { intros j. destruct (Nat.eq_dec j k) as [->|Nj].
      - unfold sees. rewrite Hx. cbn [put objs option_map]. rewrite set_nth_at; [cbn; now rewrite Sx|].
        rewrite map_length. apply nth_error_Some. congruence.
      - rewrite B2 by auto. unfold sees. rewrite E1, nth_error_map. destruct W as (<- & W). rewrite nth_error_map.
        destruct (nth_error es j) as [e|] eqn:Hj; cbn; auto. rewrite Forall_forall in B1. rewrite B1; auto. eapply nth_error_In; eauto. }
    split; cbn [D oh wm add]; try change (wm (put k x' w1)) with (omem x').
    + apply N.
    + intros y J. rewrite Old by now right. eapply new_look; eauto.
    + intros y J K. apply (cd_new C y J). rewrite Ebm. eapply Permutation_in; [symmetry; exact P1|]. now right.
    + intros y J. transitivity (val dv m1 y).
      * rewrite <- Ebm. apply (cd_val C y J).
      * unfold val. erewrite new_look; eauto. assert (Iw := proj2 W). eapply in_nodes; [exact Iw|].
        apply nth_error_In in H. unfold nodes. apply in_flat_map. exists (x, lk). split; auto. now right.
    + apply (cd_inj C).
    + exact Pm.
    + eapply quiet_trans; [exact Q1|]. assert (Q2 := cd_tk C). rewrite Ebm in Q2. exact Q2.
    + intros ls Sq. unfold seen, oseq. cbn [D oh oc os]. rewrite (good_views throws pick _ Gd). unfold count. rewrite (g_cnt Gd), map_length, amap_els.
      f_equal. f_equal. f_equal. f_equal. assert (X := f_equal (fun t => snd (fst t)) Sx). unfold seen in X. cbn [fst snd] in X. unfold oseq at 1 in X. cbn [x' oh oc os] in X.
      rewrite (good_views throws pick _ Gs), Sq in X. congruence.
    + reflexivity.
    + cbn [objs put add length]. now rewrite set_nth_len, map_length, E1, map_length.
    + intros j. exact (Se j).
    + exists (set_nth k (x', lk) (map (sync1 (omem x')) (map (sync1 m1) es))). split.
      * apply wok_add; [exact W2|]. split; [exact Sd|]. split; [symmetry; exact (cd_one C)|]. now exists (amap (oh x) h f (oc x) a), (oh x :: lk ++ nodes (remove_nth k es) ++ out).
      * rewrite set_nth_map, !snd_sync. cbn [snd]. apply set_nth_id. now rewrite nth_error_map, H.
  - destruct C as (t & Es & B). subst s'. unfold bind, on_world. cbn [put wm].
    set (m2 := mkB (mem m1) t). set (x' := mkObj throws pick (oh x) (oc x) (bset (box (oh x) (oc x)) m2 (os (sync m1 x)))).
    assert (Ex : omem x' = m2) by (unfold omem; cbn [oh oc os x']; apply (o_bb Ox)). rewrite Ex.
    assert (Ex2 : x' = sync m2 x). { unfold x', sync. cbn [oh oc os]. now rewrite (o_ss Ox). }
    rewrite (@dealloc_new _ _ _ N m2 eq_refl). cbn [throw put objs tk m2 mem]. fold m2. split; [split|]; cbn [wm objs mem tk]; auto.
    + rewrite Ex, set_nth_map, E1, (sync_syncs _ _ W), (sync_syncs _ _ W).
      apply set_nth_id. rewrite nth_error_map, Hx. cbn. f_equal. rewrite Ex2. symmetry. apply (@sync_sync (wm w) (x, lk)). exact Fx.
    + eapply blown_trans; eauto.
Qed.

(** *** swap *)
Lemma swap_eq w k l x y : nth_error (objs w) k = Some x -> nth_error (objs w) l = Some y ->
  Many.swap k l w = Ret tt (mkW (set_nth k y (set_nth l x (objs w))) (wm w)).
Proof. intros Hx Hy. unfold swap. rewrite Hx, Hy, exchange_eq. cbn [fst snd]. now destruct x, y. Qed.
Lemma swap_ok w es out k l ex ey : wok w es out -> nth_error es k = Some ex -> nth_error es l = Some ey ->
  let w' := mkW (set_nth k (fst ey) (set_nth l (fst ex) (objs w))) (wm w) in
  Many.swap k l w = Ret tt w' /\ wok w' (set_nth k ey (set_nth l ex es)) out.
Proof.
  intros W Hx Hy w'. split.
  - apply swap_eq; eapply at_obj_; eauto.
  - destruct W as (E & I). split.
    + rewrite !set_nth_map, E. reflexivity.
    + cbn [wm w']. eapply inv_perm; [symmetry; eapply perm_swaps; eauto|reflexivity|exact I].
Qed.

(** *** destruction *)
Lemma destroy_ok w es out k x lk : wok w es out -> nth_error es k = Some (x, lk) ->
  exists w', destroy k w = Ret tt w' /\ mem (wm w') = without (lk ++ [oh x]) (mem (wm w)) /\ tk (wm w') = tk (wm w) /\
    wok w' (remove_nth k (map (sync1 (wm w')) es)) out /\ (forall j, sees w' j = sees w (if j <? k then j else S j)).
Proof.
  intros W H. assert (Fx := wok_fine _ W H). destruct Fx as (Sx & Ex & _). cbn [fst] in Sx, Ex. destruct (wok_good _ W H) as (a & G). cbn [fst snd] in G.
  assert (D := destroy_spec (box_ok throws dv Sx) (has_index Sx) G). unfold wp, destroy in *. rewrite (at_obj_ _ W H). cbn [fst].
  destruct (c_destroy (oh x) (box (oh x) (oc x)) (os x)) as [u s'|s'|]; [|easy|easy]. destruct D as (T & M & P).
  unfold omem in Ex. rewrite Ex in *. set (m' := bget (box (oh x) (oc x)) s') in *. eexists. split; [reflexivity|]. cbn [wm objs].
  destruct W as (E & I).
  assert (Iv : inv (wm w) ([(x, lk)] ++ remove_nth k es) out) by (eapply inv_perm; [apply (perm_at _ _ H)|reflexivity|exact I]).
  assert (Nd := v_nd Iv). rewrite (v_mem Iv) in Nd. rewrite nodes_app in Nd. cbn [nodes flat_map fst snd] in Nd. fold (nodes (remove_nth k es)) in Nd.
  rewrite app_nil_r in Nd.
  destruct (@inv_step (wm w) m' [(x, lk)] [] (remove_nth k es) out out Iv) as (I' & B).
  - constructor.
  - rewrite M. assert (N0 := v_nd I). inversion N0 as [|? ? N1 N2]; subst. constructor; [|now apply fst_without_nd].
    intros J. apply N1. now apply fst_without_incl in J.
  - cbn [nodes flat_map app]. exact P.
  - intros y J. rewrite M. apply look_without. intros K. apply NoDup_cons_iff in Nd as (_ & Nd). rewrite <- app_assoc in Nd. apply NoDup_app_iff in Nd as (_ & _ & Nd).
    apply (Nd y); [|apply in_or_app; now left]. apply in_app_or in K as [K|[<-|[]]]; [now right|now left].
  - splits; auto.
    + split; cbn [wm objs].
      * now rewrite <- remove_map, fst_sync, E.
      * rewrite remove_map. exact I'.
    + intros j. unfold sees. cbn [objs]. rewrite nth_gone, nth_error_map, <- E, nth_error_map.
      destruct (nth_error es (if j <? k then j else S j)) as [e|] eqn:Hj; cbn; auto. rewrite Forall_forall in B. rewrite B; auto.
      eapply nth_remove; [|exact Hj]. destruct (Nat.ltb_spec j k); lia.
Qed.

(** *** moves *)
Lemma bare_ok cs : Forall (@code_ok V) cs -> Forall (@code_ok V) (map (bare mlf1) cs).
Proof. intros F. rewrite Forall_map. eapply Forall_impl; [|exact F]. now intros []. Qed.
(** [x], number [k], has been moved to the new container; [y] is left in its place *)
Record moved_to w w' (k : nat) (x y : obj) : Prop := mkMoved {
  mt_node : new_node (wm w) (wm w') (oh y);
  mt_tk : quiet throws (tk (wm w)) (tk (wm w'));
  mt_objs : objs w' = sync (wm w') x :: set_nth k y (map (sync (wm w')) (objs w));
  mt_x : seen (sync (wm w') x) = seen x;
  mt_new : y = mkObj throws pick (oh y) (map (bare mlf1) (oc x)) (fresh throws pick (oh y) (mem_world V) (map (bare mlf1) (oc x)) (wm w'));
  mt_y : seen y = (oh y, map (bare mlf1) (oc x), Some (map (fun _ => []) (oc x)), 0);
  mt_sees : forall j, j <> k -> sees w' (S j) = sees w j }.
Lemma move_create_ok w es out k x lk : wok w es out -> nth_error es k = Some (x, lk) ->
  wp (move_create mlf1 k)
     (fun _ w' => exists y, moved_to w w' k x y /\ wok w' ((sync (wm w') x, lk) :: set_nth k (y, []) (map (sync1 (wm w')) es)) out)
     (fun w' => failed w w') w.
Proof.
  intros W H. assert (Fx := wok_fine _ W H). assert (Sx := proj1 Fx). cbn [fst] in Sx. unfold move_create, wp. rewrite (at_obj_ _ W H). cbn [fst].
  assert (C := create_ok (map (bare mlf1) (oc x)) W). unfold wp, bind in *. destruct (create (map (bare mlf1) (oc x)) w) as [u w1|w1|]; auto.
  destruct C as (h & C). assert (Ok := made_ok W C (bare_ok (s_codes Sx))).
  assert (Ne : map (bare mlf1) (oc x) <> []). { assert (N := s_index Sx). now destruct (oc x). }
  specialize (Ok Ne). cbv zeta in Ok. set (y := mkObj throws pick h _ _) in *. destruct Ok as (W1 & Sy & B).
  assert (E1 : nth_error ((y, []) :: map (sync1 (wm w1)) es) 0 = Some (y, [])) by reflexivity.
  assert (E2 : nth_error ((y, []) :: map (sync1 (wm w1)) es) (S k) = Some (sync (wm w1) x, lk)) by (cbn; now rewrite nth_error_map, H).
  destruct (swap_ok _ _ W1 E1 E2) as (Sw & W2). rewrite Sw. cbn [fst snd set_nth] in W2. cbn [fst].
  destruct C as (N & Q & Eo). fold y in Eo. exists y. rewrite Eo in *. cbn [set_nth] in *.
  assert (Hx := at_obj_ _ W H). cbn [fst] in Hx.
  assert (Bx : seen (sync (wm w1) x) = seen x). { rewrite Forall_forall in B. apply (B (x, lk)). eapply nth_error_In; eauto. }
  split; [split|]; cbn [wm objs]; auto.
  - rewrite Sy, map_map. reflexivity.
  - intros j Nj. unfold sees. cbn [objs nth_error]. rewrite nth_set by auto. rewrite nth_error_map. destruct W as (<- & _). rewrite nth_error_map.
    destruct (nth_error es j) as [e|] eqn:Hj; cbn; auto. rewrite Forall_forall in B. rewrite B; auto. eapply nth_error_In; eauto.
Qed.

(** *** assignment *)
(** container [x], number [k], with elements [lx] has become a copy of [y] with elements [ly]; [h] is its new header *)
Record assigned w w' (k : nat) (x y : obj) (lx ly out : list node) es (h : node) (f : node -> node) : Prop := mkAssigned {
  as_h : ~ In h (null :: dom (wm w));
  as_old : forall z, In z (dom (wm w)) -> ~ In z (oh x :: lx) -> look_ (wm w') z = look_ (wm w) z;
  as_new : forall z, In z ly -> ~ In (f z) (dom (wm w));
  as_val : forall z, In z ly -> val dv (wm w') (f z) = val dv (wm w) z;
  as_inj : NoDup (map f ly);
  as_mem : Permutation (oh x :: lx ++ dom (wm w')) (h :: map f ly ++ dom (wm w));
  as_tk : quiet throws (tk (wm w)) (tk (wm w'));
  as_seq : forall ls, oseq y = Some ls -> sees w' k = Some (h, oc y, Some (map (map f) ls), length ly);
  as_sees : forall j, j <> k -> sees w' j = sees w j;
  as_ok : exists es', wok w' es' out /\ map snd es' = set_nth k (map f ly) (map snd es) }.
Lemma copy_assign_ok w es out k l x y lx ly : wok w es out -> nth_error es k = Some (x, lx) -> nth_error es l = Some (y, ly) ->
  wp (copy_assign k l) (fun _ w' => exists h f, assigned w w' k x y lx ly out es h f) (fun w' => failed w w') w.
Proof.
  intros W Hx Hy. unfold copy_assign. apply wp_bind. eapply wp_conseq; [eapply copy_create_ok; eauto| |auto].
  intros ? w1 (d & f & C). destruct (cl_ok C) as (es1 & W1 & Es1).
  assert (H1 : exists x1, nth_error es1 k = Some (x1, lx) /\ oh x1 = oh x /\ seen x1 = seen x).
  { assert (X : nth_error (map snd es1) k = Some lx) by now rewrite Es1, nth_error_map, Hx.
    rewrite nth_error_map in X. destruct (nth_error es1 k) as [(x1, l1)|] eqn:H; [|easy]. cbn in X. injection X as ->. exists x1. split; auto.
    assert (Hs := cl_sees C k). unfold sees in Hs. rewrite (at_obj_ _ W Hx), (@at_obj_ _ _ _ (S k) (x1, lx) W1 H) in Hs.
    cbn [option_map fst] in Hs. assert (Q : seen x1 = seen x) by congruence. split; [|exact Q]. unfold seen in Q. congruence. }
  destruct H1 as (x1 & H1 & Oh1 & S1).
  assert (E1 : nth_error ((d, map f ly) :: es1) (S k) = Some (x1, lx)) by exact H1.
  assert (E2 : nth_error ((d, map f ly) :: es1) 0 = Some (d, map f ly)) by reflexivity.
  destruct (swap_ok _ _ W1 E1 E2) as (Sw & W2). cbn [set_nth fst] in W2, Sw. set (w2 := mkW _ (wm w1)) in *.
  assert (Ob : objs w1 = d :: map fst es1) by (rewrite <- (proj1 W1); reflexivity).
  assert (Ob2 : objs w2 = x1 :: set_nth k d (map fst es1)) by (cbn [w2 objs]; rewrite Ob; reflexivity).
  destruct (@destroy_ok w2 ((x1, lx) :: set_nth k (d, map f ly) es1) out 0 x1 lx W2 eq_refl) as (w3 & De & M3 & T3 & W3 & Se3).
  unfold wp, bind. rewrite Sw, De. exists (oh d), f. change (wm w2) with (wm w1) in *. cbn [remove_nth map] in W3.
  assert (Lk : k < length es1) by (apply nth_error_Some; congruence).
  assert (Hsx : forall z, In z (oh x :: lx) -> In z (dom (wm w))).
  { intros z J. eapply in_nodes; [apply W|]. apply nth_error_In in Hx. apply in_flat_map. exists (x, lx). split; [exact Hx|exact J]. }
  assert (Lo : forall z, ~ In z (oh x :: lx) -> look_ (wm w3) z = look_ (wm w1) z).
  { intros z J. rewrite M3. apply look_without. intros K. apply J. rewrite Oh1 in K. apply in_app_or in K as [K|[K|[]]]; [now right|now left]. }
  assert (D3 : Permutation (dom (wm w1)) ((lx ++ [oh x]) ++ dom (wm w3))).
  { assert (P2 := v_mem (proj2 W2)). change (wm w2) with (wm w1) in P2. assert (P3 := v_mem (proj2 W3)). rewrite nodes_sync in P3.
    cbn [nodes flat_map fst snd] in P2. fold (nodes (set_nth k (d, map f ly) es1)) in P2. rewrite Oh1 in P2. clear - P2 P3. perm. }
  split; auto.
  - apply (cl_h C).
  - intros z J N. rewrite Lo by auto. now apply (cl_old C).
  - apply (cl_new C).
  - intros z J. rewrite <- (cl_val C z J). unfold val. rewrite Lo; auto. intros K. apply (cl_new C z J). now apply Hsx.
  - apply (cl_inj C).
  - assert (P := cl_mem C). clear - P D3. rewrite D3 in P. rewrite <- P. perm.
  - rewrite T3. apply (cl_tk C).
  - intros ls Sq. rewrite Se3. cbn [Nat.ltb Nat.leb]. unfold sees. rewrite Ob2. cbn [nth_error]. rewrite set_nth_at by (now rewrite map_length).
    cbn [option_map]. now rewrite (cl_seq C Sq).
  - intros j Nj. rewrite Se3. cbn [Nat.ltb Nat.leb]. rewrite <- (cl_sees C j). unfold sees. rewrite Ob2, Ob. cbn [nth_error]. now rewrite nth_set.
  - eexists. split; [exact W3|]. rewrite snd_sync, set_nth_map, Es1. reflexivity.
Qed.

(** *** two containers *)
Lemma between_ok w es nh k l x y ls lk (q : op1 V) : wok w es nh -> (forall y, In y nh -> live (wm w) y) -> k <> l ->
  nth_error es k = Some (x, ls) -> nth_error es l = Some (y, lk) ->
  @allowed1 V throws pick (oh x) (oh y) (oc x) (oc y) (os x, os y) ls lk nh q ->
  let post r w' := exists x' y' es', nth_error (objs w') k = Some x' /\ nth_error (objs w') l = Some y' /\
     let '(ls', lk', nh') := @ledger1 V throws pick (oh x') (oh y') (oc x') (oc y') q r (os x', os y') ls lk nh in
     wok w' es' nh' /\ (forall y, In y nh' -> live (wm w') y) /\
     map snd es' = set_nth l lk' (set_nth k ls' (map snd es)) /\ (forall j, j <> k -> j <> l -> sees w' j = sees w j) /\
     (forall j e z, j <> k -> j <> l -> nth_error es j = Some e -> In z (snd e) -> look_ (wm w') z = look_ (wm w) z) in
  wp (between k l (fun hs hd css csd => @run1 V throws pick hs hd css csd q)) (fun r w' => post (Some r) w') (fun w' => post None w') w.
Proof.
  intros W Lv N Hx Hy Al post.
  assert (Fx := wok_fine _ W Hx). assert (Fy := wok_fine _ W Hy). destruct Fx as (Sx & Ex & _), Fy as (Sy & Ey & _). cbn [fst] in Sx, Sy, Ex, Ey.
  assert (Ox := box_ok throws dv Sx). assert (Oy := box_ok throws dv Sy). unfold omem in Ex, Ey.
  destruct (perm_two es N Hx Hy) as (rest & Pe & Ps & Pr). destruct W as (E & I).
  assert (Iv : inv (wm w) ([(x, ls); (y, lk)] ++ rest) nh) by (eapply inv_perm; [exact Pe|reflexivity|exact I]).
  assert (Pi : pair_in throws pick dv (oh x) (oh y) (oc x) (oc y) (os x, os y) ls lk nh (nodes rest)).
  { split; [|cbn [fst]; now rewrite Ex]. destruct (inv_head Iv) as (a & Ga).
    assert (Iv' : inv (wm w) ((y, lk) :: [(x, ls)] ++ rest) nh) by (eapply inv_perm; [apply perm_swap|reflexivity|exact Iv]).
    destruct (inv_head Iv') as (b & Gb). cbn [fst snd] in Ga, Gb. exists a, b. split; [|split]; cbn [fst snd].
    - now rewrite Ex, Ey.
    - eapply good_lk; [reflexivity| |exact Ga]. cbn [nodes flat_map fst snd app]. fold (nodes rest). perm.
    - eapply good_lk; [reflexivity| |exact Gb]. cbn [nodes flat_map fst snd app]. fold (nodes rest). perm. }
  assert (X := run1_in Sx Sy q Pi Al).
  assert (K : forall r p', (let '(ls', lk', nh') := @ledger1 V throws pick (oh x) (oh y) (oc x) (oc y) q r p' ls lk nh in
       pair_in throws pick dv (oh x) (oh y) (oc x) (oc y) p' ls' lk' nh' (nodes rest)) /\
     @alone2 V throws pick (oh x) (oh y) (oc x) (oc y) (nodes rest) (os x, os y) p' ->
     post r (put l (mkObj throws pick (oh y) (oc y) (snd p')) (put k (mkObj throws pick (oh x) (oc x) (fst p')) w))).
  { intros r (s', d') (Y & Alo). cbn [fst snd] in *. set (x' := mkObj throws pick (oh x) (oc x) s'). set (y' := mkObj throws pick (oh y) (oc y) d').
    assert (Lk : k < length (objs w)). { rewrite <- E, map_length. apply nth_error_Some. congruence. }
    assert (Ll : l < length (objs w)). { rewrite <- E, map_length. apply nth_error_Some. congruence. }
    assert (Em : omem x' = omem y').
    { destruct (ledger1 _ _ _ _ _ _ _ _ _ _ _) as ((l1, l2), l3). destruct Y as ((a & b & (Y & _)) & _). exact Y. }
    assert (Xs : sync (omem x') x' = x'). { unfold sync, omem. cbn [oh oc os x']. now rewrite (o_gs Ox). }
    set (w2 := put l y' (put k x' w)).
    assert (Ob : objs w2 = set_nth l y' (set_nth k x' (map (sync (omem x')) (objs w)))).
    { cbn [w2 put objs]. rewrite <- Em, set_nth_map, Xs. erewrite sync_syncs; [reflexivity|split; [exact E|exact I]]. }
    assert (Hx' : nth_error (objs w2) k = Some x'). { rewrite Ob, nth_set by auto. apply set_nth_at. now rewrite map_length. }
    assert (Hy' : nth_error (objs w2) l = Some y'). { rewrite Ob. apply set_nth_at. now rewrite set_nth_len, map_length. }
    destruct (@ledger1 V throws pick (oh x) (oh y) (oc x) (oc y) q r (s', d') ls lk nh) as ((ls', lk'), nh') eqn:Lg.
    exists x', y', (set_nth l (y', lk') (set_nth k (x', ls') (map (sync1 (omem x')) es))). split; auto. split; auto.
    cbn [x' y' oh oc os]. rewrite Lg. fold x' y'. destruct Y as ((a & b & (_ & Ga & Gb)) & Lv'). cbn [fst snd] in Ga, Gb, Lv'.
    destruct (@inv_step (wm w) (omem x') [(x, ls); (y, lk)] [(x', ls'); (y', lk')] rest nh nh' Iv) as (I' & B).
    - constructor; [|constructor; [|constructor]].
      + split; [exact Sx|]. split; [reflexivity|]. now exists a, (oh y :: lk' ++ nh' ++ nodes rest).
      + split; [exact Sy|]. split; [symmetry; exact Em|]. now exists b, (oh x :: ls' ++ nh' ++ nodes rest).
    - apply (i_mem (g_inv Ga)).
    - unfold omem. cbn [oh oc os x']. rewrite (g_mem Ga). cbn [nodes flat_map fst snd app oh x' y']. perm.
    - intros z J. assert (Z := Alo z J). cbn [fst] in Z. rewrite Ex in Z. exact Z.
    - splits.
      + split; [rewrite !set_nth_map, fst_sync, E; now rewrite Ob|]. change (wm w2) with (omem y'). rewrite <- Em.
        eapply inv_perm; [symmetry; apply Ps|reflexivity|exact I'].
      + change (wm w2) with (omem y'). rewrite <- Em. exact Lv'.
      + now rewrite !set_nth_map, snd_sync.
      + intros j Nj Nl. unfold sees. rewrite Ob, !nth_set, nth_error_map by auto. rewrite <- E, nth_error_map.
        destruct (nth_error es j) as [e|] eqn:Hj; cbn [option_map]; auto. rewrite Forall_forall in B. rewrite B; auto.
        now apply (Pr j).
      + intros j e z Nj Nl Hj J. change (wm w2) with (omem y'). rewrite <- Em. assert (Z := Alo z). cbn [fst] in Z. rewrite Ex in Z. apply Z.
        apply in_flat_map. exists e. split; [now apply (Pr j)|now right]. }
  unfold wp, between in *. rewrite (at_obj_ _ (conj E I) Hx), (at_obj_ _ (conj E I) Hy). cbn [fst].
  destruct (run1 throws pick (oh x) (oh y) (oc x) (oc y) q (os x, os y)); auto.
Qed.

(** ** all operations *)
Definition wstate w (lks : list (list node)) (nh : list node) : Prop :=
  exists es, wok w es nh /\ map snd es = lks /\ forall y, In y nh -> live (wm w) y.

Lemma out_other w es out k e z : wok w es out -> nth_error es k = Some e -> In z out -> In z (dom (wm w)) /\ ~ In z (oh (fst e) :: snd e).
Proof.
  intros (_ & I) H J. split.
  - eapply Permutation_in; [symmetry; apply I|]. apply in_or_app. now right.
  - intros K. assert (N := v_nd I). rewrite (v_mem I) in N. apply NoDup_cons_iff in N as (_ & N). apply NoDup_app_iff in N as (_ & _ & N).
    apply (N z); auto. apply in_flat_map. exists e. split; auto. eapply nth_error_In; eauto.
Qed.
Lemma keep_live m m' (l : list node) : (forall z, In z l -> look_ m' z = look_ m z) -> (forall z, In z l -> live m z) -> forall z, In z l -> live m' z.
Proof. intros A Lv z J. destruct (Lv z J) as (v & L). exists v. now rewrite A. Qed.
Lemma wok_relabel w es out k x lk lk' : wok w es out -> nth_error es k = Some (x, lk) -> Permutation lk lk' -> wok w (set_nth k (x, lk') es) out.
Proof.
  intros (E & [F N M]) H P. assert (Q := perm_set (x, lk') _ _ H). assert (Q0 := perm_at _ _ H). split; [|split]; auto.
  - rewrite set_nth_map, E. apply set_nth_id. rewrite <- E. now rewrite nth_error_map, H.
  - rewrite Q. rewrite Q0 in F. inversion F as [|? ? (S1 & E1 & a & o & G) F2]; subst. constructor; auto.
    split; [exact S1|]. split; [exact E1|]. exists a, o. eapply good_lk; [exact P|reflexivity|exact G].
  - rewrite M, (nodes_perm Q), (nodes_perm Q0). cbn [nodes flat_map fst snd]. fold (nodes (remove_nth k es)). perm.
Qed.
Lemma wok_found w es out k x lk : wok w es out -> nth_error es k = Some (x, lk) -> Permutation lk (found k w).
Proof.
  intros W H. destruct (wok_fine _ W H) as (Sx & _ & a & o & G). cbn [fst snd] in *. unfold found. rewrite (at_obj_ _ W H). cbn [fst].
  unfold oseq. rewrite (good_views throws pick _ G). assert (P := i_perm (g_inv G)). assert (N := has_index Sx a).
  destruct (els (S0 (oh x) (oc x)) a) as [|l1 r1]; [easy|]. inversion P as [|? ? P1 _]; subst. cbn [elems]. now symmetry.
Qed.
Lemma at_lks es k e : nth_error es k = Some e -> at_ k (map snd es) = snd e.
Proof. intros H. unfold at_. apply nth_error_nth. now rewrite nth_error_map, H. Qed.

Lemma failed_state w w' lks nh : wstate w lks nh -> unchanged w w' -> wstate w' lks nh.
Proof.
  intros (es & W & E & Lv) U. destruct (unchanged_ok U W) as (W' & _). eexists. split; [exact W'|]. split; [now rewrite snd_sync|].
  eapply keep_live; [|exact Lv]. intros z _. now rewrite (proj1 U).
Qed.
Lemma swap_state w lks nh k l x y : wstate w lks nh -> nth_error (objs w) k = Some x -> nth_error (objs w) l = Some y ->
  exists w', Many.swap k l w = Ret tt w' /\ wstate w' (set_nth k (at_ l lks) (set_nth l (at_ k lks) lks)) nh.
Proof.
  intros (es & W & E & Lv) Hx Hy. destruct (obj_at _ W Hx) as (lx & Ex), (obj_at _ W Hy) as (ly & Ey).
  destruct (swap_ok _ _ W Ex Ey) as (Sw & W'). eexists. split; [exact Sw|]. eexists. split; [exact W'|]. split; [|exact Lv].
  rewrite !set_nth_map, <- E, (at_lks _ _ Ex), (at_lks _ _ Ey). reflexivity.
Qed.
Theorem wrun_ok w lks nh (o : wop V) : wstate w lks nh -> wallowed w lks nh o ->
  wp (wrun mlf1 o)
     (fun r w' => wstate w' (fst (wledger o (Some r) w' lks nh)) (snd (wledger o (Some r) w' lks nh)))
     (fun w' => wstate w' (fst (wledger o None w' lks nh)) (snd (wledger o None w' lks nh))) w.
Proof.
  intros Ws Al. assert (Ws0 := Ws). destruct Ws as (es & W & E & Lv).
  assert (Ln : forall k, k < length lks -> exists x lk, nth_error es k = Some (x, lk)).
  { intros k L. rewrite <- E, map_length in L. apply nth_error_Some in L. destruct (nth_error es k) as [(x, lk)|]; [eauto|easy]. }
  destruct o as [cs|k|k|k l|k l|k l|k|k q|k l q]; cbn [wrun wallowed] in *.
  - destruct Al as (C1 & C2). apply wp_bind. eapply wp_conseq; [eapply create_ok; eauto| |].
    + intros _ w' (h & C). apply wp_ret. cbn [wledger fst snd]. destruct (made_ok W C C1 C2) as (W' & _ & _).
      eexists. split; [exact W'|]. split; [cbn [map snd]; now rewrite snd_sync, E|]. eapply keep_live; [|exact Lv].
      intros z J. destruct C as (N & _). eapply new_look; [exact N|]. eapply Permutation_in; [symmetry; apply W|]. apply in_or_app. now right.
    + intros w' (U & _). eapply failed_state; eauto.
  - destruct (Ln k Al) as (x & lk & H). apply wp_bind. eapply wp_conseq; [eapply copy_create_ok; eauto| |].
    + intros _ w' (d & f & C). apply wp_ret. cbn [wledger fst snd]. destruct (cl_ok C) as (es' & W' & E').
      assert (W2 := wok_relabel 0 W' eq_refl (@wok_found _ _ _ 0 d (map f lk) W' eq_refl)). eexists. split; [exact W2|]. split; [cbn [map snd set_nth]; now rewrite E', E|].
      eapply keep_live; [|exact Lv]. intros z J. apply (cl_old C). eapply Permutation_in; [symmetry; apply W|]. apply in_or_app. now right.
    + intros w' (U & _). eapply failed_state; eauto.
  - destruct (Ln k Al) as (x & lk & H). apply wp_bind. eapply wp_conseq; [eapply move_create_ok; eauto| |].
    + intros _ w' (y & C & W'). apply wp_ret. cbn [wledger fst snd]. eexists. split; [exact W'|]. split.
      * cbn [map snd]. rewrite set_nth_map, snd_sync. cbn [snd]. rewrite E. f_equal. rewrite <- E. now rewrite (at_lks _ _ H).
      * eapply keep_live; [|exact Lv]. intros z J. eapply new_look; [exact (mt_node C)|]. eapply Permutation_in; [symmetry; apply W|]. apply in_or_app. now right.
    + intros w' (U & _). eapply failed_state; eauto.
  - destruct Al as (x & y & Hx & Hy & _). destruct (swap_state _ _ Ws0 Hx Hy) as (w' & Sw & Ws'). unfold wp, bind. rewrite Sw. exact Ws'.
  - destruct Al as (x & y & Hx & Hy & _). destruct (obj_at _ W Hx) as (lx & Ex), (obj_at _ W Hy) as (ly & Ey).
    apply wp_bind. eapply wp_conseq; [eapply copy_assign_ok; eauto| |].
    + intros _ w' (h & f & C). apply wp_ret. cbn [wledger fst snd]. destruct (as_ok C) as (es' & W' & E').
      assert (H' : exists x', nth_error es' k = Some (x', map f ly)).
      { assert (X : nth_error (map snd es') k = Some (map f ly)). { rewrite E'. apply set_nth_at. rewrite map_length. apply nth_error_Some. congruence. }
        rewrite nth_error_map in X. destruct (nth_error es' k) as [(x', l')|]; [|easy]. cbn in X. injection X as ->. eauto. }
      destruct H' as (x' & H'). assert (W2 := wok_relabel _ W' H' (wok_found _ W' H')). eexists. split; [exact W2|]. split.
      * rewrite set_nth_map, E', set_nth_twice, E. reflexivity.
      * eapply keep_live; [|exact Lv]. intros z J. destruct (out_other _ z W Ex J). now apply (as_old C).
    + intros w' (U & _). eapply failed_state; eauto.
  - destruct Al as (x & y & Hx & Hy & _). destruct (swap_state _ _ Ws0 Hx Hy) as (w' & Sw & Ws'). unfold wp, bind, move_assign. rewrite Sw. exact Ws'.
  - destruct (Ln k Al) as (x & lk & H). destruct (destroy_ok _ W H) as (w' & De & M & T & W' & _). unfold wp, bind. rewrite De. cbn [wledger fst snd].
    eexists. split; [exact W'|]. split; [now rewrite <- remove_map, snd_sync, E|]. eapply keep_live; [|exact Lv].
    intros z J. rewrite M. apply look_without. destruct (out_other _ z W H J) as (_ & N). intros K. apply N. cbn [fst snd].
    apply in_app_or in K as [K|[K|[]]]; [now right|now left].
  - destruct Al as (x & lk & Hx & Hl & Al). destruct (obj_at _ W Hx) as (lk' & H). assert (lk' = lk) as ->. { rewrite <- E, nth_error_map, H in Hl. cbn in Hl. congruence. }
    assert (Ea : at_ k lks = lk) by (rewrite <- E; apply (at_lks _ _ H)).
    eapply wp_conseq; [eapply at_ok; eauto| |]; cbv zeta.
    + intros r w' (es' & W' & Lv' & E' & _). cbn [wledger fst snd]. rewrite Ea. exists es'. splits; auto. now rewrite E', E.
    + intros w' (es' & W' & Lv' & E' & _). cbn [wledger fst snd]. rewrite Ea. exists es'. splits; auto. now rewrite E', E.
  - destruct Al as (N & x & y & ls & lk & Hx & Hy & Ls & Lk & Al). destruct (obj_at _ W Hx) as (l1 & H1), (obj_at _ W Hy) as (l2 & H2).
    assert (l1 = ls) as ->. { rewrite <- E, nth_error_map, H1 in Ls. cbn in Ls. congruence. }
    assert (l2 = lk) as ->. { rewrite <- E, nth_error_map, H2 in Lk. cbn in Lk. congruence. }
    assert (Ea : at_ k lks = ls) by (rewrite <- E; apply (at_lks _ _ H1)). assert (Eb : at_ l lks = lk) by (rewrite <- E; apply (at_lks _ _ H2)).
    eapply wp_conseq; [eapply between_ok; eauto| |]; cbv zeta.
    + intros r w' (x' & y' & es' & Hx' & Hy' & X). cbn [wledger]. rewrite Hx', Hy', Ea, Eb.
      destruct (ledger1 _ _ _ _ _ _ _ _ _ _ _) as ((l1, l2), l3). destruct X as (W' & Lv' & E' & _). cbn [fst snd]. exists es'. splits; auto. now rewrite E', E.
    + intros w' (x' & y' & es' & Hx' & Hy' & X). cbn [wledger]. rewrite Hx', Hy', Ea, Eb.
      destruct (ledger1 _ _ _ _ _ _ _ _ _ _ _) as ((l1, l2), l3). destruct X as (W' & Lv' & E' & _). cbn [fst snd]. exists es'. splits; auto. now rewrite E', E.
Qed.
Theorem reachw_ok w lks nh : reachw mlf1 w lks nh -> wstate w lks nh.
Proof.
  induction 1 as [n|w lks nh o r w' R IH A X|w lks nh o w' R IH A X].
  - exists []. split; [|split; [reflexivity|easy]]. split; [reflexivity|]. split; [constructor| |reflexivity]. cbn. constructor; [easy|constructor].
  - assert (Y := wrun_ok _ IH A). unfold wp in Y. now rewrite X in Y.
  - assert (Y := wrun_ok _ IH A). unfold wp in Y. now rewrite X in Y.
Qed.
End Many.
