(** Ranked indices: nth, rank and the lookups returning ranks. *)
From Verif Require Import Prelude OrdModel OrdTree OrdHeap OrdRot OrdLink OrdExt OrdExt2 OrdExt3 OrdTrav Layer LayerBase OrdIdx OrdSpec OrdLook.
Set Implicit Arguments.
Local Notation size := OrdTree.size.

(** ** positions *)
Lemma pos_mid p l1 x l2 : Forall (fun y => p y = false) l1 ->
  position p (l1 ++ x :: l2) = length l1 + (if p x then 0 else Datatypes.S (position p l2)).
Proof. induction 1 as [|y l1 H _ IH]; cbn; [easy|]. now rewrite H, IH. Qed.
Lemma pos_all p l1 l2 : Forall (fun y => p y = true) l2 -> position p (l1 ++ l2) = position p l1.
Proof.
  intros F. induction l1 as [|y l1 IH]; cbn.
  - destruct F as [|x l2 H _]; cbn; auto. now rewrite H.
  - now rewrite IH.
Qed.
Lemma pos_le p l : position p l <= length l.
Proof. induction l as [|y l IH]; cbn; auto. destruct (p y); lia. Qed.
Lemma pos_first hd p l1 x l2 : Forall (fun y => p y = false) l1 -> p x = true ->
  first hd p (l1 ++ x :: l2) = x /\ position p (l1 ++ x :: l2) = length l1.
Proof.
  intros F P. unfold first. rewrite find_mid, pos_mid, P by auto. auto.
Qed.
(** the position of the first element satisfying [p] is the rank of that element *)
Lemma pos_nth hd p l : List.nth (position p l) l hd = first hd p l.
Proof.
  unfold first. induction l as [|y l IH]; cbn; auto. destruct (p y); auto.
Qed.

Lemma kroot_in k : forall y, In (kroot k y) (y :: lefts k ++ rights k).
Proof.
  induction k as [|c n x r k IH|c n a x k IH]; intros y; cbn [kroot lefts rights].
  - now left.
  - specialize (IH x). cbn in *. rewrite !in_app_iff in *. cbn. rewrite in_app_iff. tauto.
  - specialize (IH x). cbn in *. rewrite !in_app_iff in *. cbn. tauto.
Qed.

Section Rank.
Variables V K : Type.
Variable throws : nat -> bool.
Variable pick : list node -> node.
Variable dv : V.
Variable key : V -> K.
Variable lt : K -> K -> bool.
Variable hd : node.
Variable L : Layer V.
Variable S : Spec V.
Variable rep : St L -> AV S -> Prop.
Variable shell : St L -> Prop.
Hypothesis O : OK throws pick dv hd L S rep shell.
Notation OM := (OM L).
Variable h : heap.
Variable s : St L.
Notation b := (bget L s).
Notation kx := (fun x => key (val dv b x)).
Notation Ro := (@Ro V throws L h s _).
Notation tree_in := (tree_in L h s).
Notation fst_or := (fun (p : node -> bool) (l : list node) (y : node) =>
  match List.find p l with Some z => z | None => y end).

Lemma wp_node_size p t F : wfc h (cells p t ++ F) -> sized t ->
  wp (node_size (rootp t)) (fun n h' => n = size t /\ h' = h) noexn h.
Proof.
  intros Wf Sz. unfold node_size. destruct t as [|c n l x r]; cbn [rootp].
  - rewrite Nat.eqb_refl. now apply wp_ret.
  - cbn [cells app] in Wf. assert (N : x <> null) by (eapply wfc_nonnull; [exact Wf|]; now left).
    apply Nat.eqb_neq in N. rewrite N. unfold wp, gs, rd.
    erewrite wfc_get; [|exact Wf|now left]. cbn in *. split; auto. tauto.
Qed.
Lemma Ro_node_size {B} p t (k : nat -> OM B) P : tree_in p t -> sized t -> Ro (k (size t)) P ->
  Ro (bind (ownM (node_size (rootp t))) k) P.
Proof.
  intros ((F & Wf) & _) Sz H. eapply Ro_own with (P := eq (size t)).
  - eapply wp_conseq; [eapply wp_node_size; eauto| |easy]. intros n h' (-> & ->). auto.
  - now intros n <-.
Qed.

Lemma descend_rank_spec p t : forall fuel q y m, t <> E -> tree_in q t -> sized t ->
  mono (fun x => p (kx x)) (inorder t) -> size t < fuel ->
  Ro (descend_rank throws key L fuel p (rootp t) y (m + size t))
     (fun r => r = (m + position (fun x => p (kx x)) (inorder t), fst_or (fun x => p (kx x)) (inorder t) y)).
Proof.
  induction t as [|c n l IHl x r IHr]; intros fuel q y m NE Ti Sz Mo Fu; [easy|].
  destruct fuel as [|f]; [lia|]. cbn [descend_rank rootp].
  apply tree_in_T in Ti. destruct Ti as (E & N & Lx & Tl & Tr). destruct Sz as (-> & Sl & Sr).
  cbn [inorder] in Mo |- *. cbn [size] in Fu |- *.
  apply mono_mid in Mo. destruct Mo as (Ml & Mr & F1 & F2).
  apply (test_spec key O); auto. destruct (p (kx x)) eqn:Px.
  - eapply Ro_rd; [exact E|]. cbn [cr]. eapply Ro_node_size; eauto.
    eapply Ro_rd; [exact E|]. cbn [cl].
    replace (m + _ - _) with (m + size l) by lia.
    rewrite pos_all, find_all by (constructor; auto). cbn [hd_error].
    destruct l as [|cl0 nl ll xl rl].
    + cbn [rootp]. rewrite Nat.eqb_refl. apply Ro_ret. cbn. reflexivity.
    + assert (Nl : xl <> null) by (apply tree_in_T in Tl; tauto). cbn [rootp].
      apply Nat.eqb_neq in Nl. rewrite Nl. eapply Ro_conseq; [apply (IHl f x); auto; [easy|lia]|].
      intros a ->. f_equal. destruct (List.find _ (inorder _)); auto.
  - eapply Ro_rd; [exact E|]. cbn [cr].
    rewrite pos_mid, find_mid by auto. rewrite Px.
    destruct r as [|cr0 nr lr xr rr].
    + cbn [rootp]. rewrite Nat.eqb_refl. apply Ro_ret. cbn. rewrite size_inorder. f_equal. lia.
    + assert (Nr : xr <> null) by (apply tree_in_T in Tr; tauto). cbn [rootp].
      apply Nat.eqb_neq in Nr. rewrite Nr.
      replace (m + _) with (m + (size l + 1) + size (T cr0 nr lr xr rr)) by (cbn; lia).
      eapply Ro_conseq; [apply (IHr f x); auto; [easy|lia]|].
      intros a ->. f_equal. rewrite size_inorder. lia.
Qed.

Lemma descend_rank_at_spec p t q y : tree_in q t -> sized t ->
  mono (fun x => p (kx x)) (inorder t) -> size t < cget L s + 4 ->
  Ro (descend_rank_at throws key L p (rootp t) y) (fun r => r = position (fun x => p (kx x)) (inorder t)).
Proof.
  intros Ti Sz Mo Fu. unfold descend_rank_at. destruct t as [|c n l x r] eqn:Et.
  - cbn [rootp]. rewrite Nat.eqb_refl. now apply Ro_ret.
  - assert (Ti' := Ti). apply tree_in_T in Ti'. destruct Ti' as (E & N & _). cbn [rootp].
    apply Nat.eqb_neq in N. rewrite N. eapply Ro_rd; [exact E|]. cbn [cs].
    apply (Ro_bound O). rewrite <- Et in *. assert (Es : n = 0 + size t) by (subst t; cbn in Sz |- *; tauto).
    rewrite Es. replace x with (rootp t) by (now subst t). eapply Ro_bind.
    + eapply descend_rank_spec; eauto. now subst.
    + intros a ->. now apply Ro_ret.
Qed.

Lemma eqr_rank_spec below above t : forall fuel q y m, tree_in q t -> sized t ->
  cut (fun x => below (kx x)) (fun x => above (kx x)) (inorder t) ->
  size t < fuel -> size t < cget L s + 4 ->
  Ro (eqr_rank_loop throws key L fuel below above (rootp t) y (m + size t))
     (fun r => r = (m + position (fun x => negb (below (kx x))) (inorder t),
                    m + position (fun x => above (kx x)) (inorder t))).
Proof.
  induction t as [|c n l IHl x r IHr]; intros fuel q y m Ti Sz [Mb Ma Ex] Fu Fs;
    (destruct fuel as [|f]; [lia|]); cbn [eqr_rank_loop rootp].
  - rewrite Nat.eqb_refl. now apply Ro_ret.
  - apply tree_in_T in Ti. destruct Ti as (E & N & Lx & Tl & Tr). destruct Sz as (-> & Sl & Sr).
    apply Nat.eqb_neq in N. rewrite N. cbn [inorder] in Mb, Ma, Ex |- *. cbn [size] in Fu, Fs |- *.
    assert (Exl : forall y, In y (inorder l) -> below (kx y) = true -> above (kx y) = false)
      by (intros; apply Ex; auto; rewrite in_app_iff; auto).
    assert (Exr : forall y, In y (inorder r) -> below (kx y) = true -> above (kx y) = false)
      by (intros; apply Ex; auto; rewrite in_app_iff; cbn; auto).
    assert (Exx : below (kx x) = true -> above (kx x) = false)
      by (intros; apply Ex; auto; rewrite in_app_iff; cbn; auto).
    apply mono_mid in Mb. destruct Mb as (Mbl & Mbr & B1 & B2).
    apply mono_mid in Ma. destruct Ma as (Mal & Mar & A1 & A2).
    apply (test_spec key O); auto. destruct (below (kx x)) eqn:Bx; cbn [negb] in *.
    + eapply Ro_rd; [exact E|]. cbn [cr].
      replace (m + _) with (m + (size l + 1) + size r) by lia.
      eapply Ro_conseq; [apply (IHr f x); auto; [split; auto|lia|lia]|].
      intros a ->. rewrite !pos_mid by auto. rewrite Bx, Exx by auto. cbn [negb]. rewrite size_inorder. f_equal; lia.
    + apply (test_spec key O); auto. destruct (above (kx x)) eqn:Ax.
      * eapply Ro_rd; [exact E|]. cbn [cr]. eapply Ro_node_size; eauto.
        eapply Ro_rd; [exact E|]. cbn [cl].
        replace (m + _ - _) with (m + size l) by lia.
        eapply Ro_conseq; [apply (IHl f x); auto; [split; auto|lia|lia]|].
        intros a ->. rewrite !pos_all by (constructor; rewrite ?Bx; auto). reflexivity.
      * eapply Ro_rd; [exact E|]. cbn [cs]. eapply Ro_rd; [exact E|]. cbn [cl].
        unfold lower_bound_rank_at. eapply Ro_bind; [eapply descend_rank_at_spec; eauto; lia|].
        intros a ->. eapply Ro_rd; [exact E|]. cbn [cr]. eapply Ro_node_size; eauto.
        unfold upper_bound_rank_at. eapply Ro_bind; [eapply descend_rank_at_spec; eauto; lia|].
        intros a' ->. apply Ro_ret. f_equal.
        -- rewrite !pos_all by (constructor; rewrite ?Bx; auto). lia.
        -- rewrite pos_mid by auto. rewrite Ax, size_inorder. lia.
Qed.

Lemma range_rank_spec lower upper t : forall fuel q y m, tree_in q t -> sized t ->
  mono (fun x => lower (kx x)) (inorder t) -> mono (fun x => negb (upper (kx x))) (inorder t) ->
  size t < fuel -> size t < cget L s + 4 ->
  Ro (range_rank_loop throws key L fuel lower upper (rootp t) y (m + size t))
     (fun r => r = (m + position (fun x => lower (kx x)) (inorder t),
                    m + position (fun x => lower (kx x) && negb (upper (kx x))) (inorder t))).
Proof.
  induction t as [|c n l IHl x r IHr]; intros fuel q y m Ti Sz Mb Ma Fu Fs;
    (destruct fuel as [|f]; [lia|]); cbn [range_rank_loop rootp].
  - rewrite Nat.eqb_refl. now apply Ro_ret.
  - apply tree_in_T in Ti. destruct Ti as (E & N & Lx & Tl & Tr). destruct Sz as (-> & Sl & Sr).
    apply Nat.eqb_neq in N. rewrite N. cbn [inorder] in Mb, Ma |- *. cbn [size] in Fu, Fs |- *.
    apply mono_mid in Mb. destruct Mb as (Mbl & Mbr & B1 & B2).
    apply mono_mid in Ma. destruct Ma as (Mal & Mar & A1 & A2).
    apply (test_spec key O); auto. destruct (lower (kx x)) eqn:Bx; cbn [negb] in *.
    + specialize (B2 eq_refl). apply (test_spec key O); auto. destruct (upper (kx x)) eqn:Ax; cbn [negb] in *.
      * specialize (A1 eq_refl). eapply Ro_rd; [exact E|]. cbn [cs]. eapply Ro_rd; [exact E|]. cbn [cl].
        unfold lower_range_rank. eapply Ro_bind; [eapply descend_rank_at_spec; eauto; lia|].
        intros a ->. eapply Ro_rd; [exact E|]. cbn [cr]. eapply Ro_node_size; eauto.
        unfold upper_range_rank. eapply Ro_bind; [eapply descend_rank_at_spec; eauto; lia|].
        intros a' ->. apply Ro_ret. f_equal.
        -- rewrite !pos_all by (constructor; auto). lia.
        -- rewrite pos_mid.
           2:{ eapply Forall_impl; [|exact A1]. cbn. intros z ->. apply andb_false_r. }
           rewrite Ax, size_inorder, andb_false_r.
           assert (Q : position (fun x => lower (kx x) && negb (upper (kx x))) (inorder r) =
                       position (fun x => negb (upper (kx x))) (inorder r)).
           { clear - B2. induction B2 as [|z w H _ IH]; cbn; auto. rewrite H, IH. cbn. auto. }
           cbv beta in Q. rewrite Q. cbn. lia.
      * specialize (A2 eq_refl). eapply Ro_rd; [exact E|]. cbn [cr]. eapply Ro_node_size; eauto.
        eapply Ro_rd; [exact E|]. cbn [cl].
        replace (m + _ - _) with (m + size l) by lia.
        eapply Ro_conseq; [apply (IHl f x); auto; lia|].
        intros a ->. rewrite !pos_all; auto.
        -- constructor; [now rewrite Bx, Ax|]. rewrite Forall_forall in *. intros z I. now rewrite B2, A2.
    + specialize (B1 eq_refl). eapply Ro_rd; [exact E|]. cbn [cr].
      replace (m + _) with (m + (size l + 1) + size r) by lia.
      eapply Ro_conseq; [apply (IHr f x); auto; lia|].
      intros a ->. rewrite !pos_mid; auto.
      2:{ eapply Forall_impl; [|exact B1]. cbn. intros z ->. reflexivity. }
      rewrite Bx. cbn [andb]. rewrite size_inorder. f_equal; lia.
Qed.

Lemma nth_loop_spec t : forall fuel p F n, wfc h (cells p t ++ F) -> sized t -> n < size t -> size t < fuel ->
  wp (nth_loop fuel n (rootp t)) (fun r h' => r = List.nth n (inorder t) hd /\ h' = h) noexn h.
Proof.
  induction t as [|c m l IHl x r IHr]; intros fuel p F n Wf Sz Lt Fu; [cbn in Lt; lia|].
  destruct fuel as [|f]; [lia|]. cbn [nth_loop rootp].
  destruct (cells_eta _ _ Wf eq_refl) as (E & N & (Fl & Wl) & (Fr & Wr)). destruct Sz as (-> & Sl & Sr).
  cbn [size] in Fu, Lt. cbn [inorder].
  apply wp_bind. unfold wp at 1, gl, rd. rewrite E. cbn [cl].
  apply wp_bind. eapply wp_conseq; [eapply wp_node_size; eauto| |easy]. intros m h' (-> & ->).
  destruct (Nat.eqb_spec n (size l)) as [->|Ne].
  - apply wp_ret. split; auto. rewrite app_nth2 by (rewrite <- size_inorder; lia). rewrite <- size_inorder, Nat.sub_diag. reflexivity.
  - destruct (Nat.ltb_spec n (size l)).
    + apply wp_bind. unfold wp at 1. rewrite E. cbn [cl].
      eapply wp_conseq; [eapply (IHl f x Fl n); auto; lia| |easy]. intros a h' (-> & ->). split; auto.
      symmetry. apply app_nth1. now rewrite <- size_inorder.
    + apply wp_bind. unfold wp at 1, gr, rd. rewrite E. cbn [cr].
      eapply wp_conseq; [eapply (IHr f x Fr); auto; lia| |easy]. intros a h' (-> & ->). split; auto.
      rewrite app_nth2 by (rewrite <- size_inorder; lia). rewrite <- size_inorder.
      replace (n - size l) with (Datatypes.S (n - (size l + 1))) by lia. reflexivity.
Qed.

(** the whole index *)
Variable t : OrdTree.tree.
Variable hs : nat.
Variable F : list (node * cell).
Hypothesis TA : tat hd hs h t F.
Hypothesis LV : forall x, In x (inorder t) -> live b x.
Hypothesis SZ : size t <= cget L s.
Hypothesis SD : sized t.
Notation l := (inorder t).
Lemma root_in : tree_in hd t.
Proof. eapply all_in; eauto. Qed.

Lemma wfc_all : exists F', wfc h (cells hd t ++ F').
Proof. exists ((hd, hcell hd hs t) :: F). eapply wfc_perm; [exact TA|]. cperm. Qed.
Lemma hd_cell : h hd = Some (hcell hd hs t).
Proof. eapply wfc_get; [exact TA|]. now left. Qed.

Theorem nth_ok n : Ro (OrdIdx.nth hd L n) (fun r => r = List.nth n l hd).
Proof.
  unfold OrdIdx.nth. apply (Ro_tree1 O). destruct wfc_all as (F' & Wf).
  apply wp_bind. unfold wp at 1, gp, rd. rewrite hd_cell. cbn [cp hcell].
  destruct t as [|c m a x r] eqn:Et.
  - cbn [rootp]. rewrite Nat.eqb_refl. apply wp_ret. split; auto. now destruct n.
  - destruct (cells_eta _ _ Wf eq_refl) as (E & N & _). cbn [rootp].
    apply Nat.eqb_neq in N. rewrite N. apply wp_bind. unfold wp at 1, gs, rd. rewrite E. cbn [cs].
    rewrite <- Et in *. assert (Em : m = size t) by (subst t; cbn in SD |- *; tauto). rewrite Em.
    destruct (Nat.leb_spec (size t) n).
    + apply wp_ret. split; auto. symmetry. apply nth_overflow. now rewrite <- size_inorder.
    + replace x with (rootp t) by (now subst t). eapply nth_loop_spec; eauto. lia.
Qed.

Lemma wfc_left k c n a y r : t = plug k (T c n a y r) -> exists F', wfc h (cells y a ++ F').
Proof.
  intros Et. assert (W := TA). rewrite Et in W. apply tat_open in W.
  match type of W with wfc h (?u :: ?v ++ ?w) =>
    assert (W' : wfc h (v ++ u :: w)) by (eapply wfc_perm; [exact W|apply Permutation_middle]) end.
  destruct (cells_eta _ _ W' eq_refl) as (_ & _ & H & _). exact H.
Qed.
Lemma rank_loop_spec k : forall fuel u m, u <> E -> t = plug k u -> klen k < fuel -> sized t ->
  wp (rank_loop fuel (rootp u) (rootp t) m) (fun r h' => r = m + length (lefts k) /\ h' = h) noexn h.
Proof.
  induction k as [|c n y r k IH|c n a y k IH]; intros fuel u m NE Et Fu SD'; (destruct fuel as [|f]; [lia|]); cbn [rank_loop];
    destruct u as [|ct nt a0 x b0]; try easy.
  - cbn [plug] in Et. rewrite Et. cbn [rootp]. rewrite Nat.eqb_refl. apply wp_ret. cbn. split; auto.
  - assert (W0 := TA). rewrite Et in W0. assert (W := W0). apply tat_open in W.
    assert (Nr : (x =? rootp t) = false).
    { apply Nat.eqb_neq. rewrite Et, rootp_plug. eapply ctx_disj; [exact W0| |].
      - cbn. rewrite in_app_iff. cbn. auto.
      - assert (Q := kroot_in k y). cbn [kroot lefts rights]. cbn in Q. rewrite !in_app_iff in *. cbn. rewrite ?in_app_iff. tauto. }
    cbn [rootp]. rewrite Nr. flat W. step1. step1.
    ne_rootp N x y r. rewrite N. apply wp_bind, wp_ret.
    eapply wp_conseq; [apply (IH f (T c n (T ct nt a0 x b0) y r) m); auto; [easy|cbn in Fu; lia]| |auto].
    intros ? ? (-> & ->). auto.
  - assert (W0 := TA). rewrite Et in W0. assert (W := W0). apply tat_open in W.
    assert (Nr : (x =? rootp t) = false).
    { apply Nat.eqb_neq. rewrite Et, rootp_plug. eapply ctx_disj; [exact W0| |].
      - cbn. rewrite in_app_iff. cbn. auto.
      - assert (Q := kroot_in k y). cbn [kroot lefts rights]. cbn in Q. rewrite !in_app_iff in *. cbn. rewrite ?in_app_iff. tauto. }
    cbn [rootp]. rewrite Nr. flat W. step1. step1. rewrite Nat.eqb_refl.
    apply wp_bind. step1. apply wp_bind.
    assert (Sa : sized a).
    { rewrite Et in SD'. apply sized_plug in SD'. cbn in SD'. tauto. }
    destruct (@wfc_left k c n a y (T ct nt a0 x b0) Et) as (F' & Wa).
    eapply wp_conseq; [eapply (@wp_node_size y a); [exact Wa|exact Sa]| |easy].
    intros sz h' (-> & ->). apply wp_ret.
    eapply wp_conseq; [apply (IH f (T c n a y (T ct nt a0 x b0))); auto; [easy|cbn in Fu; lia]| |auto].
    intros ? ? (-> & ->). split; auto. cbn [lefts]. rewrite !app_length. cbn. rewrite <- size_inorder. lia.
Qed.

Theorem rank_ok l1 x l2 : l = l1 ++ x :: l2 -> Ro (rank hd L x) (fun r => r = length l1).
Proof.
  intros I. unfold rank. apply (Ro_tree1 O). destruct wfc_all as (F' & Wf).
  apply wp_bind. unfold wp at 1, gp, rd. rewrite hd_cell. cbn [cp hcell].
  assert (NE : t <> E) by (intros Q; rewrite Q in I; destruct l1; discriminate).
  assert (Nn : (rootp t =? null) = false).
  { destruct t as [|c m a z r]; [easy|]. destruct (cells_eta _ _ Wf eq_refl) as (_ & N & _). now apply Nat.eqb_neq. }
  rewrite Nn. assert (Nh : (x =? hd) = false).
  { apply Nat.eqb_neq. intros ->. apply (hd_notin TA). rewrite I, in_app_iff. cbn. auto. }
  rewrite Nh. destruct (tat_focus _ _ _ TA I) as (k & c & n & a & b0 & Et & El & Er).
  assert (W := TA). rewrite Et in W. apply tat_open in W. flat W. step1. apply wp_bind.
  assert (Sa : sized a).
  { rewrite Et in SD. apply sized_plug in SD. cbn in SD. tauto. }
  destruct (@wfc_left k c n a x b0 Et) as (F2 & Wa).
  eapply wp_conseq; [eapply (@wp_node_size x a); [exact Wa|exact Sa]| |easy].
  intros sz h' (-> & ->). assert (KL := klen_size k (T c n a x b0)). rewrite <- Et in KL.
  change x with (rootp (T c n a x b0)) at 1.
  eapply wp_conseq; [eapply (@rank_loop_spec k _ (T c n a x b0)); auto; [easy|cbn in KL; lia]| |easy].
  intros r h' (-> & ->). split; auto. rewrite El, app_length, <- size_inorder. lia.
Qed.
Theorem rank_end_ok : Ro (rank hd L hd) (fun r => r = length l).
Proof.
  unfold rank. apply (Ro_tree1 O). destruct wfc_all as (F' & Wf).
  apply wp_bind. unfold wp at 1, gp, rd. rewrite hd_cell. cbn [cp hcell].
  destruct t as [|c m a x r] eqn:Et.
  - cbn [rootp]. rewrite Nat.eqb_refl. now apply wp_ret.
  - destruct (cells_eta _ _ Wf eq_refl) as (E & N & _). cbn [rootp].
    apply Nat.eqb_neq in N. rewrite N, Nat.eqb_refl. unfold wp, gs, rd. rewrite E. cbn [cs].
    rewrite <- size_inorder. cbn in *. tauto.
Qed.

Theorem lower_bound_rank_ok below : mono (fun x => negb (below (kx x))) l ->
  Ro (lower_bound_rank throws key hd L below) (fun r => r = position (fun x => negb (below (kx x))) l).
Proof.
  intros Mo. unfold lower_bound_rank, lower_bound_rank_at. eapply Ro_root; [exact TA|].
  eapply descend_rank_at_spec; [apply root_in|auto|auto|lia].
Qed.
Theorem upper_bound_rank_ok above : mono (fun x => above (kx x)) l ->
  Ro (upper_bound_rank throws key hd L above) (fun r => r = position (fun x => above (kx x)) l).
Proof.
  intros Mo. unfold upper_bound_rank, upper_bound_rank_at. eapply Ro_root; [exact TA|].
  eapply descend_rank_at_spec; [apply root_in|auto|auto|lia].
Qed.
Theorem equal_range_rank_ok below above :
  cut (fun x => below (kx x)) (fun x => above (kx x)) l ->
  Ro (equal_range_rank throws key hd L below above)
     (fun r => r = (position (fun x => negb (below (kx x))) l, position (fun x => above (kx x)) l)).
Proof.
  intros C. unfold equal_range_rank. eapply Ro_root; [exact TA|]. assert (Ti := root_in).
  destruct t as [|c m a x r] eqn:Et.
  - cbn [rootp]. rewrite Nat.eqb_refl. now apply Ro_ret.
  - assert (Ti' := Ti). apply tree_in_T in Ti'. destruct Ti' as (E & N & _). cbn [rootp].
    apply Nat.eqb_neq in N. rewrite N. eapply Ro_rd; [exact E|]. cbn [cs]. apply (Ro_bound O).
    rewrite <- Et in *. assert (Es : m = 0 + size t) by (subst t; cbn in SD |- *; tauto).
    rewrite Es. replace x with (rootp t) by (now subst t). eapply eqr_rank_spec; eauto; lia.
Qed.
(** the rank of the element found, or of end() *)
Theorem find_rank_ok below above :
  cut (fun x => below (kx x)) (fun x => above (kx x)) l ->
  Ro (find_rank throws key hd L below above)
     (fun r => r = position (fun x => negb (below (kx x)) && negb (above (kx x))) l).
Proof.
  intros C. unfold find_rank. eapply Ro_root; [exact TA|]. assert (Ti := root_in).
  destruct t as [|c m a x r] eqn:Et.
  - cbn [rootp]. rewrite Nat.eqb_refl. now apply Ro_ret.
  - assert (Ti' := Ti). apply tree_in_T in Ti'. destruct Ti' as (E & N & _). cbn [rootp].
    apply Nat.eqb_neq in N. rewrite N. eapply Ro_rd; [exact E|]. cbn [cs]. apply (Ro_bound O).
    rewrite <- Et in *. assert (Es : m = 0 + size t) by (subst t; cbn in SD |- *; tauto).
    rewrite Es. replace x with (rootp t) by (now subst t). destruct C as [Mb Ma Ex].
    eapply Ro_bind; [eapply descend_rank_spec; eauto; [now subst|lia]|]. intros q ->. cbn [fst snd].
    assert (HN := hd_notin TA). rewrite size_inorder. cbn [Nat.add].
    destruct (mono_split Mb) as (m1 & m2 & El & F1 & F2). rewrite El in *.
    rewrite find_split by auto. destruct m2 as [|y m2]; cbn [hd_error].
    + rewrite Nat.eqb_refl. apply Ro_ret. rewrite app_nil_r. clear - F1.
      induction F1 as [|z m1 H _ IH]; cbn; auto. rewrite H. cbn. now rewrite <- IH.
    + assert (Ny : (y =? hd) = false).
      { apply Nat.eqb_neq. intros ->. apply HN. rewrite in_app_iff. cbn. auto. }
      rewrite Ny. inversion F2 as [|? ? Fy F3]; subst.
      rewrite pos_mid by auto. rewrite Fy.
      rewrite pos_mid by (eapply Forall_impl; [|exact F1]; cbn; intros z ->; auto).
      rewrite Fy. cbn [andb]. apply (test_spec key O).
      { apply LV. rewrite in_app_iff. cbn. auto. }
      apply Ro_ret. destruct (above (kx y)) eqn:Ay; cbn [negb].
      * rewrite app_length. cbn. do 2 f_equal. apply mono_mid in Ma. destruct Ma as (_ & _ & _ & A2).
        specialize (A2 Ay). clear - A2. induction A2 as [|z m H _ IH]; cbn; auto. rewrite H, andb_false_r. auto.
      * lia.
Qed.
Theorem rcount_ok below above :
  cut (fun x => below (kx x)) (fun x => above (kx x)) l ->
  Ro (rcount throws key hd L below above)
     (fun r => r = num (fun x => negb (below (kx x)) && negb (above (kx x))) l).
Proof.
  intros C. unfold rcount. eapply Ro_bind; [now apply equal_range_rank_ok|]. intros p ->. cbn [fst snd].
  apply Ro_ret. destruct (cut_split C) as (m1 & m2 & m3 & El & F1 & F2 & F3 & F4 & F5). rewrite El.
  unfold num. rewrite !filter_app, !app_length.
  rewrite (filter_none _ (m := m1)), (filter_all _ (m := m2)), (filter_none _ (m := m3)).
  - assert (G : forall p u v, Forall (fun y => p y = false) u -> Forall (fun y => p y = true) v -> position p (u ++ v) = length u).
    { intros p u v H. induction H as [|z u H _ IH]; cbn; intros Hv.
      - destruct Hv as [|z v Hz _]; cbn; auto. now rewrite Hz.
      - rewrite H. now rewrite IH. }
    rewrite (G (fun x => negb (below (kx x))) m1 (m2 ++ m3)), (app_assoc m1 m2 m3), (G (fun x => above (kx x)) (m1 ++ m2) m3); auto.
    + rewrite app_length. cbn. lia.
    + eapply Forall_impl; [|exact F1]. cbn. intros z ->. auto.
    + eapply Forall_impl; [|exact F5]. cbn. intros z ->. auto.
  - eapply Forall_impl; [|exact F3]. cbn. intros z ->. now rewrite andb_false_r.
  - eapply Forall_impl; [|exact F2]. cbn. intros z (-> & ->). auto.
  - eapply Forall_impl; [|exact F1]. cbn. intros z ->. auto.
Qed.

Notation lo_test := (lo_test dv key L s).
Notation up_test := (up_test dv key L s).
Theorem range_rank_ok lower upper : size t = cget L s ->
  mono (lo_test lower) l -> mono (fun x => negb (up_test upper x)) l ->
  Ro (range_rank throws key hd L lower upper)
     (fun r => r = (position (lo_test lower) l, position (fun x => lo_test lower x && negb (up_test upper x)) l)).
Proof.
  intros Sc Mb Ma. unfold range_rank. eapply Ro_root; [exact TA|]. apply (Ro_bound O). assert (Ti := root_in).
  assert (P0 : forall m, position (fun _ => true) m = 0) by (intros [|]; reflexivity).
  assert (Pn : forall p : node -> bool, position (fun x => p x && negb true) l = cget L s).
  { intros p. rewrite <- Sc, size_inorder. generalize l. intros m. induction m as [|z m IH]; cbn; auto.
    rewrite andb_false_r. cbn in IH. now rewrite IH. }
  destruct lower as [lo|], upper as [up|]; cbn [OrdLook.lo_test OrdLook.up_test] in *.
  - destruct t as [|c m a x r] eqn:Et.
    + cbn [rootp]. rewrite Nat.eqb_refl. now apply Ro_ret.
    + assert (Ti' := Ti). apply tree_in_T in Ti'. destruct Ti' as (E & N & _). cbn [rootp].
      apply Nat.eqb_neq in N. rewrite N. eapply Ro_rd; [exact E|]. cbn [cs].
      rewrite <- Et in *. assert (Es : m = 0 + size t) by (subst t; cbn in SD |- *; tauto).
      rewrite Es. replace x with (rootp t) by (now subst t). eapply range_rank_spec; eauto; lia.
  - unfold lower_range_rank. eapply Ro_bind; [eapply descend_rank_at_spec; eauto; lia|].
    intros q ->. apply (Ro_size O). apply Ro_ret. f_equal. symmetry. apply Pn.
  - unfold upper_range_rank. eapply Ro_bind; [eapply descend_rank_at_spec; eauto; lia|].
    intros q ->. apply Ro_ret. rewrite P0. auto.
  - apply (Ro_size O). apply Ro_ret. rewrite P0. f_equal. symmetry. apply Pn.
Qed.
End Rank.
