(** Where an ordered index links a node. *)
From Verif Require Import Prelude OrdModel OrdTree OrdHeap OrdRot OrdLink OrdTrav Layer LayerBase OrdIdx OrdSpec OrdLook.
Set Implicit Arguments.
Local Notation size := OrdTree.size.

(** ** Order *)
Section Order.
Variable K : Type.
Variable lt : K -> K -> bool.
Variable uniq : bool.
Hypothesis W : swo lt.
Notation rel := (rel lt uniq).

Lemma lt_asym {a b} : lt a b = true -> lt b a = false.
Proof.
  intros H. destruct (lt b a) eqn:E; auto. assert (T := w_trans W _ _ _ H E). now rewrite (w_irr W) in T.
Qed.
Lemma nlt_trans {a b c} : lt a b = false -> lt b c = false -> lt a c = false.
Proof.
  intros H1 H2. destruct (lt a c) eqn:E; auto. destruct (w_weak W _ _ b E); congruence.
Qed.
Lemma lt_rel {a b} : lt a b = true -> rel a b = true.
Proof. intros H. unfold OrdSpec.rel. destruct uniq; auto. now rewrite (lt_asym H). Qed.
Lemma rel_nlt {a b} : rel a b = true -> lt b a = false.
Proof. unfold OrdSpec.rel. destruct uniq; [apply lt_asym|]. now destruct (lt b a). Qed.
Lemma rel_lt_trans {a b c} : rel a b = true -> lt b c = true -> lt a c = true.
Proof.
  intros H1 H2. apply rel_nlt in H1. destruct (w_weak W _ _ a H2); congruence.
Qed.
Lemma lt_rel_trans {a b c} : lt a b = true -> rel b c = true -> lt a c = true.
Proof.
  intros H1 H2. apply rel_nlt in H2. destruct (w_weak W _ _ c H1); congruence.
Qed.
Lemma rel_trans {a b c} : rel a b = true -> rel b c = true -> rel a c = true.
Proof.
  unfold OrdSpec.rel. destruct uniq; [apply (w_trans W)|]. rewrite !negb_true_iff. intros; eapply nlt_trans; eauto.
Qed.

Section Keys.
Variable V : Type.
Variable key : V -> K.
Variable vl : node -> V.
Notation kx := (fun x => key (vl x)).
Notation sorted := (sorted key lt uniq vl).
Notation adm := (adm key lt uniq vl).
Notation last_adm := (last_adm key lt uniq vl).

Lemma sorted_mono_gt k l : sorted l -> mono (fun x => lt k (kx x)) l.
Proof.
  unfold sorted, mono. induction 1 as [|x l H IH F]; constructor; auto.
  eapply Forall_impl; [|exact F]. cbn. intros. eapply lt_rel_trans; eauto.
Qed.
Lemma sorted_mono_nlt k l : sorted l -> mono (fun x => negb (lt (kx x) k)) l.
Proof.
  unfold sorted, mono. induction 1 as [|x l H IH F]; constructor; auto.
  eapply Forall_impl; [|exact F]. cbn. intros y R N. destruct (lt (key (vl y)) k) eqn:E; auto.
  now rewrite (rel_lt_trans R E) in N.
Qed.
(** the comparison of the index itself cuts its elements *)
Lemma sorted_cut k l : sorted l -> cut (fun x => lt (kx x) k) (fun x => lt k (kx x)) l.
Proof.
  intros H. split; [now apply sorted_mono_nlt|now apply sorted_mono_gt|].
  intros x _. apply lt_asym.
Qed.

Lemma adm_sorted l1 x l2 : sorted (l1 ++ x :: l2) <-> sorted (l1 ++ l2) /\ adm (kx x) l1 l2.
Proof. unfold sorted, adm. rewrite sorted_mid. tauto. Qed.
Lemma last_adm_adm k l1 l2 : last_adm k l1 l2 -> adm k l1 l2.
Proof.
  intros (A & B). split; auto. eapply Forall_impl; [|exact B]. cbn. intros. now apply lt_rel.
Qed.

Lemma split_le (l1 l2 m1 m2 : list node) : l1 ++ l2 = m1 ++ m2 -> (forall y, In y l1 -> ~ In y m2) ->
  length l1 <= length m1.
Proof.
  intros E H. apply app_eq_app in E. destruct E as (m & [(-> & ->)|(-> & ->)]).
  - destruct m as [|y m]; [rewrite app_nil_r; lia|]. exfalso. apply (H y); rewrite in_app_iff; cbn; auto.
  - rewrite app_length. lia.
Qed.
Lemma adm_uniq k l1 l2 m1 m2 : uniq = true -> l1 ++ l2 = m1 ++ m2 -> adm k l1 l2 -> adm k m1 m2 ->
  length l1 = length m1.
Proof.
  unfold OrdSpec.adm, OrdSpec.rel. intros -> E (A1 & A2) (B1 & B2). rewrite !Forall_forall in *.
  apply Nat.le_antisymm.
  - eapply split_le; [exact E|]. intros y I J. specialize (A1 y I). specialize (B2 y J).
    rewrite (lt_asym A1) in B2. discriminate.
  - symmetry in E. eapply split_le; [exact E|]. intros y I J. specialize (B1 y I). specialize (A2 y J).
    rewrite (lt_asym B1) in A2. discriminate.
Qed.

(** being as close as possible to the place between [h1] and the rest *)
Definition nearest (k : K) (l h1 l1 : list node) : Prop :=
  forall m1 m2, l = m1 ++ m2 -> adm k m1 m2 -> dist (length l1) (length h1) <= dist (length m1) (length h1).
Lemma near_here k l h1 : nearest k l h1 h1.
Proof. intros m1 m2 _ _. unfold dist. lia. Qed.
Lemma near_uniq k l h1 l1 l2 : uniq = true -> l = l1 ++ l2 -> adm k l1 l2 -> nearest k l h1 l1.
Proof.
  intros U E A m1 m2 E' A'. rewrite (@adm_uniq k l1 l2 m1 m2); auto. congruence.
Qed.
(** the first admissible place, the hint being too low *)
Lemma near_low k l h1 p h2 l1 l2 : sorted l -> l = h1 ++ p :: h2 -> l = l1 ++ l2 ->
  lt (kx p) k = true ->
  Forall (fun y => lt (kx y) k = true) l1 -> Forall (fun y => lt (kx y) k = false) l2 ->
  nearest k l h1 l1.
Proof.
  intros So E1 E2 P F1 F2 m1 m2 E3 (_ & A2). rewrite Forall_forall in *.
  assert (H1 : length h1 <= length l1).
  { eapply split_le with (l2 := p :: h2) (m2 := l2); [congruence|]. intros y I J. specialize (F2 y J).
    rewrite E1 in So. apply sorted_mid in So. destruct So as (_ & So & _). rewrite Forall_forall in So.
    specialize (So y I). cbn in So. rewrite (rel_lt_trans So P) in F2. discriminate. }
  assert (H2 : length l1 <= length m1).
  { eapply split_le with (l2 := l2) (m2 := m2); [congruence|]. intros y I J. specialize (F1 y I).
    specialize (A2 y J). apply rel_nlt in A2. congruence. }
  unfold dist. lia.
Qed.
(** the last admissible place, the hint being too high *)
Lemma near_high k l h1 p h2 l1 l2 : sorted l -> l = (h1 ++ [p]) ++ h2 -> l = l1 ++ l2 ->
  lt k (kx p) = true -> last_adm k l1 l2 -> nearest k l (h1 ++ [p]) l1.
Proof.
  intros So E1 E2 P (F1 & F2) m1 m2 E3 (A1 & _). rewrite Forall_forall in *.
  assert (H1 : length l1 <= length (h1 ++ [p])).
  { eapply split_le with (l2 := l2) (m2 := h2); [congruence|]. intros y I J. specialize (F1 y I).
    rewrite <- app_assoc in E1. cbn in E1. rewrite E1 in So. apply sorted_mid in So.
    destruct So as (_ & _ & So). rewrite Forall_forall in So. specialize (So y J). cbn in So.
    apply rel_nlt in F1. rewrite (lt_rel_trans P So) in F1. discriminate. }
  assert (H2 : length m1 <= length l1).
  { eapply split_le with (l2 := m2) (m2 := l2); [congruence|]. intros y I J. specialize (A1 y I).
    specialize (F2 y J). apply rel_nlt in A1. congruence. }
  unfold dist. lia.
Qed.

Lemma sorted_last_rel k l : sorted l -> l <> [] -> forall d, rel (kx (last l d)) k = true ->
  Forall (fun y => rel (kx y) k = true) l.
Proof.
  intros So NE d R. destruct (exists_last NE) as (m & z & ->). rewrite last_last in R.
  apply sorted_mid in So. destruct So as (_ & F & _). apply Forall_app. split; auto.
  eapply Forall_impl; [|exact F]. cbn. intros y Ry. eapply rel_trans; eauto.
Qed.
Lemma sorted_hd_rel k x l : sorted (x :: l) -> rel k (kx x) = true ->
  Forall (fun y => rel k (kx y) = true) (x :: l).
Proof.
  intros So R. constructor; auto. inversion So as [|? ? _ F]; subst.
  eapply Forall_impl; [|exact F]. cbn. intros y Ry. eapply rel_trans; eauto.
Qed.
End Keys.
End Order.

(** ** Contexts *)
Definition isl (sd : side) : bool := match sd with to_left => true | to_right => false end.

Section Point.
Variables V K : Type.
Variable throws : nat -> bool.
Variable pick : list node -> node.
Variable dv : V.
Variable key : V -> K.
Variable lt : K -> K -> bool.
Variable uniq : bool.
Variable hd : node.
Variable L : Layer V.
Variable S : Spec V.
Variable rep : St L -> AV S -> Prop.
Variable shell : St L -> Prop.
Hypothesis O : OK throws pick dv hd L S rep shell.
Hypothesis W : swo lt.
Notation OM := (OM L).

Variable h : heap.
Variable s : St L.
Notation b := (bget L s).
Notation vl := (val dv b).
Notation kx := (fun x => key (val dv b x)).
Notation Ro := (@Ro V throws L h s _).
Notation tree_in := (@tree_in V L h s).
Notation adm := (adm key lt uniq vl).
Notation last_adm := (last_adm key lt uniq vl).
Notation sorted := (sorted key lt uniq vl).

Lemma lp_loop_spec k t : forall c fuel d, tree_in (cpar hd c) t ->
  mono (fun x => lt k (kx x)) (inorder t) ->
  Forall (fun x => lt k (kx x) = false) (lefts c) -> Forall (fun x => lt k (kx x) = true) (rights c) ->
  (t = E -> d = isl (kside c)) -> size t < fuel ->
  Ro (lp_loop throws key lt L fuel k (cpar hd c) (rootp t) d)
     (fun r => exists c', plug c t = plug c' E /\ r = (cpar hd c', isl (kside c')) /\
        Forall (fun x => lt k (kx x) = false) (lefts c') /\ Forall (fun x => lt k (kx x) = true) (rights c')).
Proof.
  induction t as [|cl0 n l IHl x r IHr]; intros c fuel d Ti Mo F1 F2 D Fu;
    (destruct fuel as [|f]; [lia|]); cbn [lp_loop rootp].
  - apply Ro_ret. exists c. rewrite D; auto.
  - apply tree_in_T in Ti. destruct Ti as (E1 & N & Lx & Tl & Tr).
    apply Nat.eqb_neq in N. rewrite N. cbn [inorder] in Mo. cbn [size] in Fu.
    apply mono_mid in Mo. destruct Mo as (Ml & Mr & M1 & M2).
    apply (Ro_val O); auto. unfold cmp. apply (Ro_ucall O). cbv beta.
    destruct (lt k (kx x)) eqn:C.
    + eapply Ro_rd; [exact E1|]. cbn [cl].
      eapply Ro_conseq; [apply (IHl (CL cl0 n x r c)); auto; cbn [rights cpar kside isl]; auto|].
      * constructor; auto. apply Forall_app. split; auto.
      * lia.
      * cbn [plug]. auto.
    + eapply Ro_rd; [exact E1|]. cbn [cr].
      eapply Ro_conseq; [apply (IHr (CR cl0 n l x c)); auto; cbn [lefts cpar kside isl]; auto|].
      * rewrite !Forall_app. splits; auto.
      * lia.
      * cbn [plug]. auto.
Qed.

Lemma llp_loop_spec k t : forall c fuel d, tree_in (cpar hd c) t ->
  mono (fun x => negb (lt (kx x) k)) (inorder t) ->
  Forall (fun x => lt (kx x) k = true) (lefts c) -> Forall (fun x => lt (kx x) k = false) (rights c) ->
  (t = E -> d = negb (isl (kside c))) -> size t < fuel ->
  Ro (llp_loop throws key lt L fuel k (cpar hd c) (rootp t) d)
     (fun r => exists c', plug c t = plug c' E /\ r = (cpar hd c', negb (isl (kside c'))) /\
        Forall (fun x => lt (kx x) k = true) (lefts c') /\ Forall (fun x => lt (kx x) k = false) (rights c')).
Proof.
  induction t as [|cl0 n l IHl x r IHr]; intros c fuel d Ti Mo F1 F2 D Fu;
    (destruct fuel as [|f]; [lia|]); cbn [llp_loop rootp].
  - apply Ro_ret. exists c. rewrite D; auto.
  - apply tree_in_T in Ti. destruct Ti as (E1 & N & Lx & Tl & Tr).
    apply Nat.eqb_neq in N. rewrite N. cbn [inorder] in Mo. cbn [size] in Fu.
    apply mono_mid in Mo. destruct Mo as (Ml & Mr & M1 & M2).
    apply (Ro_val O); auto. unfold cmp. apply (Ro_ucall O). cbv beta.
    destruct (lt (kx x) k) eqn:C; cbn [negb] in *.
    + eapply Ro_rd; [exact E1|]. cbn [cr].
      eapply Ro_conseq; [apply (IHr (CR cl0 n l x c)); auto; cbn [lefts cpar kside isl]; auto|].
      * rewrite !Forall_app. splits; auto. eapply Forall_impl; [|apply M1; auto]. cbn. intros a.
        now destruct (lt (key (val dv b a)) k).
      * lia.
      * cbn [plug]. auto.
    + eapply Ro_rd; [exact E1|]. cbn [cl].
      eapply Ro_conseq; [apply (IHl (CL cl0 n x r c)); auto; cbn [rights cpar kside isl]; auto|].
      * constructor; auto. apply Forall_app. split; auto. eapply Forall_impl; [|apply M2; auto]. cbn. intros a.
        now destruct (lt (key (val dv b a)) k).
      * lia.
      * cbn [plug]. auto.
Qed.

Variable t : OrdTree.tree.
Variable hs : nat.
Variable F : list (node * cell).
Hypothesis TA : tat hd hs h t F.
Hypothesis LV : forall x, In x (inorder t) -> live b x.
Hypothesis SZ : size t <= cget L s.
Hypothesis CB : colr t = Black.
Notation l := (inorder t).

Lemma cell_at c cl0 n a x r : t = plug c (T cl0 n a x r) ->
  h x = Some (mk (rootp a) (rootp r) (cpar hd c) cl0 n).
Proof.
  intros ->. assert (T := TA). apply tat_open in T. cbn [cells app] in T.
  eapply wfc_get; [exact T|]. right. now left.
Qed.

(** what a link_point function returns *)
Definition pt (k : K) (A : list node -> list node -> Prop) (r : link_info) : Prop :=
  let '(ok, (sd, pos)) := r in
  if ok : bool then exists c, t = plug c E /\ sd = kside c /\ pos = cpar hd c /\ A (lefts c) (rights c)
  else In pos l /\ uniq = true /\ lt k (kx pos) = false /\ lt (kx pos) k = false.

Lemma side_isl c : (if isl (kside c) then to_left else to_right) = kside c.
Proof. now destruct c. Qed.
Lemma lr c : t = plug c E -> l = lefts c ++ rights c.
Proof. intros ->. now rewrite inorder_plug. Qed.

Lemma link_point_nu_spec k : uniq = false -> sorted l ->
  Ro (link_point_nu throws key lt hd L k) (pt k (last_adm k)).
Proof.
  intros U So. unfold link_point_nu. eapply Ro_root; [exact TA|]. apply (Ro_bound O).
  eapply Ro_bind.
  - eapply (@lp_loop_spec k t Top); auto.
    + eapply all_in; eauto.
    + eapply (sorted_mono_gt W); exact So.
    + cbn. auto.
    + cbn. auto.
    + lia.
  - intros r (c & E1 & -> & F1 & F2). apply Ro_ret. unfold pt. exists c. rewrite side_isl. splits; auto.
    split; auto. unfold rel. rewrite U. eapply Forall_impl; [|exact F1]. cbn. now intros a ->.
Qed.
Lemma lower_link_point_spec k : sorted l ->
  Ro (lower_link_point throws key lt hd L k)
     (pt k (fun l1 l2 => Forall (fun x => lt (kx x) k = true) l1 /\ Forall (fun x => lt (kx x) k = false) l2)).
Proof.
  intros So. unfold lower_link_point. eapply Ro_root; [exact TA|]. apply (Ro_bound O).
  eapply Ro_bind.
  - eapply (@llp_loop_spec k t Top); auto.
    + eapply all_in; eauto.
    + eapply (sorted_mono_nlt W); exact So.
    + cbn. auto.
    + cbn. auto.
    + lia.
  - intros r (c & E1 & -> & F1 & F2). apply Ro_ret. unfold pt. exists c. splits; auto.
    now destruct c.
Qed.

Lemma tree_prev {B} l1 x l2 (k : node -> OM B) P : l = l1 ++ x :: l2 -> l1 <> [] ->
  Ro (k (last l1 hd)) P -> Ro (bind (tree L (fun f => decrement f x)) k) P.
Proof.
  intros E1 NE H. eapply (Ro_tree O) with (P := fun r => r = last l1 hd); [|now intros ? ->].
  eapply decrement_spec with (hs := hs) (1 := TA); eauto. lia.
Qed.
Lemma tree_next {B} l1 x l2 (k : node -> OM B) P : l = l1 ++ x :: l2 ->
  Ro (k (List.hd hd l2)) P -> Ro (bind (tree L (fun f => increment f x)) k) P.
Proof.
  intros E1 H. eapply (Ro_tree O) with (P := fun r => r = List.hd hd l2); [|now intros ? ->].
  apply increment_spec with (hs := hs) (1 := TA) (2 := E1). lia.
Qed.

Lemma last_cons_ne {A} (m : list A) d d' : m <> [] -> last m d = last m d'.
Proof. intros NE. destruct (exists_last NE) as (m' & z & ->). now rewrite !last_last. Qed.

Lemma link_point_unique_spec k : uniq = true -> sorted l ->
  Ro (link_point_unique throws key lt hd L k) (pt k (last_adm k)).
Proof.
  intros U So. unfold link_point_unique. eapply Ro_root; [exact TA|]. apply (Ro_bound O).
  eapply Ro_bind.
  { eapply (@lp_loop_spec k t Top) with (d := true); auto.
    + eapply all_in; eauto.
    + eapply (sorted_mono_gt W); exact So.
    + cbn. auto.
    + cbn. auto.
    + lia. }
  intros r (c & E1 & -> & F1 & F2). cbn [plug] in E1. assert (Il := lr c E1).
  eapply Ro_leftmost; [exact TA|].
  assert (Fin : Ro (v <- oval L (last (lefts c) hd) ;; b0 <- cmp throws lt L (key v) k ;;
                    ret (if b0 : bool then (true, (if isl (kside c) then to_left else to_right, cpar hd c))
                         else (false, (to_left, last (lefts c) hd))))
                   (pt k (last_adm k)) \/ lefts c = []).
  { destruct (lefts c) as [|y0 ys] eqn:Lf; [now right|]. left. rewrite <- Lf in *.
    assert (NE : lefts c <> []) by (rewrite Lf; easy).
    assert (Iy : In (last (lefts c) hd) (lefts c)) by (now apply last_In).
    apply (Ro_val O); [apply LV; rewrite Il, in_app_iff; auto|]. apply (Ro_ucall O). apply Ro_ret.
    destruct (lt (key (vl (last (lefts c) hd))) k) eqn:C; unfold pt.
    - exists c. rewrite side_isl. splits; auto. split; auto.
      rewrite Il in So. apply sorted_app in So. destruct So as (So & _ & _).
      eapply (sorted_last_rel W) with (vl := vl) (d := hd); eauto. now apply (lt_rel _ W).
    - splits; auto; [rewrite Il, in_app_iff; auto|]. rewrite Forall_forall in F1. now apply F1. }
  destruct c as [|cc0 n x r c|cc0 n a x c].
  - cbn in *. rewrite Il. cbn [List.hd]. rewrite Nat.eqb_refl. cbn [andb]. apply Ro_ret.
    unfold pt. exists Top. splits; auto. split; constructor.
  - cbn [kside isl cpar andb]. destruct (Nat.eqb_spec x (List.hd hd l)) as [Ex|Nx].
    + apply Ro_ret. unfold pt. exists (CL cc0 n x r c). splits; auto. split; auto.
      cbn [lefts] in *. destruct (lefts c) as [|y ys] eqn:Lf; auto. exfalso.
      assert (ND := nd_l TA). rewrite Il in ND, Ex. cbn in Ex, ND. subst y.
      inversion ND as [|? ? N _]. apply N. rewrite in_app_iff. cbn. auto.
    + destruct Fin as [Fin|Fin].
      2:{ exfalso. apply Nx. rewrite Il, Fin. reflexivity. }
      eapply Ro_bind with (P := eq (last (lefts (CL cc0 n x r c)) hd)).
      * eapply (Ro_tree1 O). eapply wp_conseq.
        { eapply decrement_spec with (hs := hs) (1 := TA); [auto|exact Il| |].
          - intros Fe. apply Nx. rewrite Il, Fe. reflexivity.
          - lia. }
        { intros a h' (-> & ->). auto. }
        { auto. }
      * intros ? <-. exact Fin.
  - cbn [kside isl cpar andb]. apply Ro_bind with (P := eq x); [now apply Ro_ret|]. intros ? <-.
    cbn [kside isl cpar] in Fin.
    assert (Lx : last (lefts (CR cc0 n a x c)) hd = x).
    { cbn [lefts]. rewrite app_assoc. apply last_last. }
    rewrite Lx in Fin. destruct Fin as [Fin|Fin]; [exact Fin|].
    exfalso. cbn [lefts] in Fin. apply app_eq_nil in Fin. destruct Fin as (_ & Fin).
    apply app_eq_nil in Fin. now destruct Fin.
Qed.

Theorem link_point_spec k : sorted l -> Ro (link_point throws key lt uniq hd L k) (pt k (last_adm k)).
Proof.
  intros So. destruct (bool_dec uniq true) as [U|U].
  - replace (link_point throws key lt uniq hd L k) with (link_point_unique throws key lt hd L k)
      by (unfold link_point; now rewrite U).
    now apply link_point_unique_spec.
  - apply not_true_is_false in U.
    replace (link_point throws key lt uniq hd L k) with (link_point_nu throws key lt hd L k)
      by (unfold link_point; now rewrite U).
    now apply link_point_nu_spec.
Qed.

(** ** Hints *)
Lemma pt_conseq k (A A' : list node -> list node -> Prop) r :
  (forall l1 l2, l = l1 ++ l2 -> A l1 l2 -> A' l1 l2) -> pt k A r -> pt k A' r.
Proof.
  intros H. unfold pt. destruct r as ([] & sd & pos); auto.
  intros (c & E1 & -> & -> & HA). exists c. splits; auto. apply H; auto. now apply lr.
Qed.

Lemma pt_left k (A : list node -> list node -> Prop) x m : l = x :: m -> A [] l ->
  pt k A (true, (to_left, x)).
Proof.
  intros E1 HA. destruct (@min_focus t) as (c & cc0 & n & y & r & E2 & Lf & _ & I2).
  { intros ->. discriminate. }
  exists (CL cc0 n y r c). rewrite E1 in I2. injection I2 as -> I2. splits; auto.
  cbn [lefts rights]. rewrite Lf, <- I2, <- E1. auto.
Qed.
Lemma pt_right k (A : list node -> list node -> Prop) : l <> [] -> A l [] ->
  pt k A (true, (to_right, last l hd)).
Proof.
  intros NE HA. destruct (@max_focus t) as (c & cc0 & n & a & x & E2 & Rp).
  { intros ->. now cbn in NE. }
  assert (Rn := right_path_rights _ Rp).
  assert (Il : l = lefts c ++ inorder a ++ [x]).
  { rewrite E2, inorder_plug, Rn. cbn [inorder]. now rewrite app_nil_r. }
  exists (CR cc0 n a x c). splits; auto.
  - rewrite Il, app_assoc, last_last. reflexivity.
  - cbn [lefts rights]. now rewrite <- Il, Rn.
Qed.
Lemma between_spec k (A : list node -> list node -> Prop) l1 a p l2 :
  l = l1 ++ a :: p :: l2 -> A (l1 ++ [a]) (p :: l2) -> Ro (between L a p) (pt k A).
Proof.
  intros E1 HA. destruct (tat_focus _ _ _ TA E1) as (c & cc0 & n & al & ar & E2 & E3 & E4).
  unfold between. eapply Ro_rd; [eapply cell_at; eauto|]. cbn [cr]. apply Ro_ret.
  destruct ar as [|c2 n2 b1 xb b2].
  - cbn [rootp]. rewrite Nat.eqb_refl. exists (CR cc0 n al a c). splits; auto.
    cbn [lefts rights]. cbn in E4. rewrite <- E4, app_assoc, <- E3. exact HA.
  - cbn [rootp]. destruct (Nat.eqb_spec xb null) as [->|N].
    { exfalso. apply (proj2 (proj2 (tat_nodup_in TA))). rewrite E2, inorder_plug. cbn [inorder].
      rewrite !in_app_iff. cbn. rewrite in_app_iff. cbn. auto 10. }
    destruct (@min_focus (T c2 n2 b1 xb b2)) as (c3 & cc3 & n3 & y & r & E5 & Lf & _ & I2); [easy|].
    rewrite I2 in E4. cbn [app] in E4. injection E4 as <- E4.
    exists (CL cc3 n3 p r (kapp c3 (CR cc0 n al a c))). splits; auto.
    + rewrite E2, E5. cbn [plug]. now rewrite plug_kapp.
    + cbn [lefts rights]. rewrite lefts_kapp, rights_kapp, Lf, app_nil_r. cbn [lefts rights].
      rewrite (app_assoc (lefts c)), <- E3, app_assoc, <- E4. exact HA.
Qed.

Notation nearest := (nearest lt uniq key vl).

Lemma rel_u a c : uniq = true -> rel lt uniq a c = lt a c.
Proof. unfold rel. now intros ->. Qed.
Lemma rel_n a c : uniq = false -> rel lt uniq a c = negb (lt c a).
Proof. unfold rel. now intros ->. Qed.

(** the split of a hint and how the code recognizes it *)
Lemma hint_cases p h1 h2 : l = h1 ++ h2 -> p = List.hd hd h2 ->
  (p = List.hd hd l /\ h1 = []) \/
  (p <> List.hd hd l /\ p = hd /\ h2 = [] /\ l <> []) \/
  (exists m a h2', p <> List.hd hd l /\ p <> hd /\ h1 = m ++ [a] /\ h2 = p :: h2').
Proof.
  intros E1 ->. assert (ND := nd_l TA). assert (HN := hd_notin TA). rewrite E1 in *.
  destruct h1 as [|y h1]; [left; auto|]. right. cbn [app List.hd] in *.
  destruct h2 as [|p h2].
  - left. cbn. splits; auto; [|easy]. intros ->. apply HN. now left.
  - right. cbn [List.hd]. destruct (exists_last (l := y :: h1)) as (m & a & E2); [easy|].
    exists m, a, h2. splits; auto.
    + intros ->. inversion ND as [|? ? N _]. apply N. rewrite in_app_iff. cbn. auto.
    + intros ->. apply HN. right. rewrite in_app_iff. cbn. auto.
Qed.

Theorem hinted_link_point_spec k p h1 h2 : sorted l -> l = h1 ++ h2 -> p = List.hd hd h2 ->
  size t = cget L s ->
  Ro (hinted_link_point throws key lt uniq hd L k p)
     (pt k (fun l1 l2 => adm k l1 l2 /\ nearest k l h1 l1)).
Proof.
  intros So E1 Ep SZ'.
  assert (Near : forall l1 l2, l = l1 ++ l2 -> l1 = h1 -> adm k l1 l2 -> adm k l1 l2 /\ nearest k l h1 l1).
  { intros l1 l2 _ -> A. split; auto. apply near_here. }
  assert (Len : (cget L s =? 0) = match l with [] => true | _ => false end).
  { rewrite <- SZ', size_inorder. now destruct l. }
  destruct (bool_dec uniq true) as [U|U].
  - (* unique *)
    replace (hinted_link_point throws key lt uniq hd L k p) with (hinted_unique throws key lt hd L k p)
      by (unfold hinted_link_point; now rewrite U).
    assert (Fall : Ro (link_point_unique throws key lt hd L k)
                      (pt k (fun l1 l2 => adm k l1 l2 /\ nearest k l h1 l1))).
    { eapply Ro_conseq; [apply link_point_unique_spec; auto|]. intros r.
      apply pt_conseq. intros l1 l2 E2 HA. apply (last_adm_adm W) in HA. split; auto.
      now eapply (near_uniq W); eauto. }
    unfold hinted_unique. eapply Ro_leftmost; [exact TA|].
    destruct (hint_cases h1 h2 E1 Ep) as [(C1 & C2)|[(C1 & C2 & C3 & C4)|(m & a & h2' & C1 & C2 & C3 & C4)]].
    + rewrite C1, Nat.eqb_refl. apply (Ro_size O). rewrite Len.
      destruct l as [|x l'] eqn:El.
      { apply Ro_bind with (P := eq false); [now apply Ro_ret|]. intros ? <-. exact Fall. }
      cbn [List.hd]. rewrite <- El in *.
      assert (Ix : In x l) by (rewrite El; now left).
      apply Ro_bind with (P := eq (lt k (kx x))).
      { apply (Ro_val O); auto. now apply (Ro_ucall1 O). }
      intros ? <-. destruct (lt k (kx x)) eqn:C; [|exact Fall].
      apply Ro_ret. eapply pt_left; [exact El|]. apply Near; auto.
      split; auto. rewrite El. eapply (sorted_hd_rel W); [rewrite <- El; exact So|].
      now rewrite rel_u.
    + destruct (Nat.eqb_spec p (List.hd hd l)); [easy|]. rewrite C2, Nat.eqb_refl.
      eapply Ro_rightmost; [exact TA|]. assert (Ix : In (last l hd) l) by (now apply last_In).
      apply (Ro_val O); auto. unfold cmp. apply (Ro_ucall O).
      destruct (lt (kx (last l hd)) k) eqn:C; [|exact Fall].
      eapply Ro_rightmost; [exact TA|]. apply Ro_ret. eapply pt_right; auto.
      apply Near; [now rewrite app_nil_r|rewrite E1, C3; now rewrite app_nil_r|].
      split; [|constructor]. eapply (sorted_last_rel W) with (d := hd); eauto. now rewrite rel_u.
    + destruct (Nat.eqb_spec p (List.hd hd l)); [easy|]. destruct (Nat.eqb_spec p hd); [easy|].
      assert (E2 : l = (m ++ [a]) ++ p :: h2') by (rewrite E1, C3, C4; auto).
      eapply tree_prev; [exact E2|now destruct m|]. rewrite last_last.
      assert (Ia : In a l) by (rewrite E2, !in_app_iff; cbn; auto).
      assert (Ip : In p l) by (rewrite E2, !in_app_iff; cbn; auto).
      apply (Ro_val O); auto. unfold cmp at 1. apply (Ro_ucall O).
      destruct (lt (kx a) k) eqn:C.
      2:{ apply Ro_bind with (P := eq false); [now apply Ro_ret|]. intros ? <-. exact Fall. }
      apply Ro_bind with (P := eq (lt k (kx p))).
      { apply (Ro_val O); auto. now apply (Ro_ucall1 O). }
      intros ? <-. destruct (lt k (kx p)) eqn:C'; [|exact Fall].
      eapply between_spec; [rewrite E2, <- app_assoc; reflexivity|]. apply Near; auto.
      rewrite E2 in So. assert (So' := So). apply sorted_app in So'. destruct So' as (S1 & S2 & _). split.
      * eapply (sorted_last_rel W) with (vl := vl) (d := hd); [exact S1|now destruct m|]. rewrite last_last.
        now rewrite rel_u.
      * eapply (sorted_hd_rel W) with (vl := vl); eauto. now rewrite rel_u.
  - (* not unique *)
    apply not_true_is_false in U.
    replace (hinted_link_point throws key lt uniq hd L k p) with (hinted_nu throws key lt hd L k p)
      by (unfold hinted_link_point; now rewrite U).
    assert (Low : l = [] \/ (exists h2', h2 = p :: h2' /\ lt (kx p) k = true) ->
              Ro (lower_link_point throws key lt hd L k)
                      (pt k (fun l1 l2 => adm k l1 l2 /\ nearest k l h1 l1))).
    { intros H1. eapply Ro_conseq; [apply lower_link_point_spec; auto|]. intros r.
      apply pt_conseq. intros l1 l2 E2 (F1 & F2). split.
      - split; [eapply Forall_impl; [|exact F1]|eapply Forall_impl; [|exact F2]]; cbn; intros y Hy.
        + now apply (lt_rel _ W).
        + rewrite rel_n by auto. now rewrite Hy.
      - destruct H1 as [H1|(h2' & -> & H1)].
        + rewrite H1 in *. symmetry in E1, E2. apply app_eq_nil in E1, E2.
          destruct E1 as (-> & _), E2 as (-> & _). apply near_here.
        + eapply (near_low W); eauto. }
    assert (High : (exists m a, h1 = m ++ [a] /\ lt k (kx a) = true) ->
              Ro (link_point_nu throws key lt hd L k)
                      (pt k (fun l1 l2 => adm k l1 l2 /\ nearest k l h1 l1))).
    { intros (m & a & -> & H1). eapply Ro_conseq; [apply link_point_nu_spec; auto|]. intros r.
      apply pt_conseq. intros l1 l2 E2 HA. split; [now apply (last_adm_adm W)|].
      eapply (near_high W); eauto. }
    unfold hinted_nu. eapply Ro_leftmost; [exact TA|].
    destruct (hint_cases h1 h2 E1 Ep) as [(C1 & C2)|[(C1 & C2 & C3 & C4)|(m & a & h2' & C1 & C2 & C3 & C4)]].
    + rewrite C1, Nat.eqb_refl. apply (Ro_size O). rewrite Len.
      destruct l as [|x l'] eqn:El.
      { apply Ro_bind with (P := eq false); [now apply Ro_ret|]. intros ? <-. apply Low. auto. }
      cbn [List.hd] in *. rewrite <- El in *.
      assert (Ix : In x l) by (rewrite El; now left).
      apply Ro_bind with (P := eq (negb (lt (kx x) k))).
      { apply (Ro_val O); auto. apply (Ro_ucall O). now apply Ro_ret. }
      intros ? <-. destruct (lt (kx x) k) eqn:C; cbn [negb].
      { apply Low. right. exists l'. subst h1. cbn in E1. rewrite <- E1, El, C1. auto. }
      apply Ro_ret. eapply pt_left; [exact El|]. apply Near; auto.
      split; auto. rewrite El. eapply (sorted_hd_rel W); [rewrite <- El; exact So|].
      rewrite rel_n by auto. now rewrite C.
    + destruct (Nat.eqb_spec p (List.hd hd l)); [easy|]. rewrite C2, Nat.eqb_refl.
      eapply Ro_rightmost; [exact TA|]. assert (Ix : In (last l hd) l) by (now apply last_In).
      apply (Ro_val O); auto. unfold cmp. apply (Ro_ucall O).
      assert (E2 : l = h1) by (rewrite E1, C3; now rewrite app_nil_r).
      destruct (lt k (kx (last l hd))) eqn:C; cbn [negb].
      { apply High. destruct (exists_last C4) as (m & a & E3). exists m, a. split; [congruence|].
        now rewrite E3, last_last in C. }
      eapply Ro_rightmost; [exact TA|]. apply Ro_ret. eapply pt_right; auto.
      apply Near; [now rewrite app_nil_r|exact E2|].
      split; [|constructor]. eapply (sorted_last_rel W) with (d := hd); [exact So|auto|]. rewrite rel_n by auto.
      now rewrite C.
    + destruct (Nat.eqb_spec p (List.hd hd l)); [easy|]. destruct (Nat.eqb_spec p hd); [easy|].
      assert (E2 : l = (m ++ [a]) ++ p :: h2') by (rewrite E1, C3, C4; auto).
      eapply tree_prev; [exact E2|now destruct m|]. rewrite last_last.
      assert (Ia : In a l) by (rewrite E2, !in_app_iff; cbn; auto).
      assert (Ip : In p l) by (rewrite E2, !in_app_iff; cbn; auto).
      apply (Ro_val O); auto. unfold cmp at 1. apply (Ro_ucall O).
      destruct (lt k (kx a)) eqn:C; cbn [negb].
      { apply High. eauto. }
      apply (Ro_val O); auto. unfold cmp at 1. apply (Ro_ucall O).
      destruct (lt (kx p) k) eqn:C'; cbn [negb].
      { apply Low. right. eauto. }
      eapply between_spec; [rewrite E2, <- app_assoc; reflexivity|]. apply Near; auto.
      rewrite E2 in So. assert (So' := So). apply sorted_app in So'. destruct So' as (S1 & S2 & _). split.
      * eapply (sorted_last_rel W) with (vl := vl) (d := hd); [exact S1|now destruct m|].
        rewrite last_last, rel_n by auto. now rewrite C.
      * eapply (sorted_hd_rel W) with (vl := vl); [exact S2|]. rewrite rel_n by auto. now rewrite C'.
Qed.

(** ** in_place *)
Lemma Forall_last_iff k l1 : sorted l1 -> l1 <> [] ->
  rel lt uniq (kx (last l1 hd)) k = true <-> Forall (fun y => rel lt uniq (kx y) k = true) l1.
Proof.
  intros So NE. split.
  - intros R. eapply (sorted_last_rel W) with (vl := vl); eauto.
  - intros H. rewrite Forall_forall in H. apply H. now apply last_In.
Qed.

Theorem in_place_spec v l1 x l2 : l = l1 ++ x :: l2 -> sorted (l1 ++ l2) ->
  Ro (in_place throws key lt uniq hd L v x) (fun r => r = true <-> adm (key v) l1 l2).
Proof.
  intros E1 So. unfold in_place. assert (ND := nd_l TA). assert (HN := hd_notin TA).
  assert (So' := So). apply sorted_app in So'. destruct So' as (S1 & S2 & _).
  eapply Ro_leftmost; [exact TA|].
  apply Ro_bind with (P := fun r => r = true <-> Forall (fun y => rel lt uniq (kx y) (key v) = true) l1).
  - destruct (Nat.eqb_spec x (List.hd hd l)) as [Ex|Nx].
    + apply Ro_ret. assert (l1 = []) as ->; [|split; auto].
      destruct l1 as [|y l1]; auto. exfalso. rewrite E1 in Ex, ND. cbn in Ex, ND. subst y.
      inversion ND as [|? ? N _]. apply N. rewrite in_app_iff. cbn. auto.
    + assert (NE : l1 <> []). { intros ->. apply Nx. rewrite E1. reflexivity. }
      eapply tree_prev; eauto.
      eapply Ro_conseq with (P := fun r => r = true <-> rel lt uniq (kx (last l1 hd)) (key v) = true).
      2:{ intros r Hr. rewrite Hr. exact (Forall_last_iff (key v) S1 NE). }
      assert (I : In (last l1 hd) l) by (rewrite E1, in_app_iff; left; now apply last_In).
      apply (Ro_val O); auto. clear - O. destruct uniq eqn:U.
      * apply (Ro_ucall1 O). unfold rel. tauto.
      * apply (Ro_ucall O). apply Ro_ret. unfold rel. tauto.
  - intros r Hr. destruct r.
    2:{ apply Ro_ret. split; [easy|]. intros (A & _). now apply Hr. }
    assert (A1 := proj1 Hr eq_refl).
    eapply tree_next; eauto. destruct l2 as [|y l2]; cbn [List.hd].
    + rewrite Nat.eqb_refl. apply Ro_ret. split; auto. intros _. split; auto.
    + destruct (Nat.eqb_spec y hd) as [->|Ny].
      { exfalso. apply HN. rewrite E1, in_app_iff. cbn. auto. }
      assert (I : In y l) by (rewrite E1, in_app_iff; cbn; auto).
      assert (H : rel lt uniq (key v) (kx y) = true <-> adm (key v) l1 (y :: l2)).
      { split.
        - intros R. split; auto. eapply (sorted_hd_rel W) with (vl := vl); eauto.
        - intros (_ & B). now inversion B. }
      eapply Ro_conseq with (P := fun r => r = true <-> rel lt uniq (key v) (kx y) = true).
      2:{ intros r Hr'. rewrite Hr'. exact H. }
      apply (Ro_val O); auto. clear - O. destruct uniq eqn:U.
      * apply (Ro_ucall1 O). unfold rel. tauto.
      * apply (Ro_ucall O). apply Ro_ret. unfold rel. tauto.
Qed.
End Point.
