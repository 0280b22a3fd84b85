(** invariant_ of each kind of index is true of an index which represents a sequence of elements. *)
From Verif Require Import Prelude SeqModel SeqSpec SeqHeap SeqUser OrdModel OrdTree OrdHeap OrdRot OrdLink OrdExt2 OrdExt3 OrdTrav OrdIns Layer LayerBase
  OrdIdx OrdSpec OrdLayer PosIdx PosOk SeqIdx RndModel RndProofs RndIdx Stack View Iops Inv.
From Verif Require HashModel HashIdx HashHeap HashLink HashRead HashLay HashSpec HashPoint HashOk HashView.
Set Implicit Arguments.

Lemma rb S A B (m : M S A) (k : A -> M S B) a s : m s = Ret a s -> bind m k s = k a s.
Proof. intros E. unfold bind. now rewrite E. Qed.
Lemma own_ro T S A (m : M T A) a t (s : S) : m t = Ret a t -> ownM m (t, s) = Ret a (t, s).
Proof. intros E. unfold ownM, lensM. cbn. now rewrite E. Qed.
Lemma sup_ro T S A (m : M S A) a (t : T) s : m s = Ret a s -> supM m (t, s) = Ret a (t, s).
Proof. intros E. unfold supM, lensM. cbn. now rewrite E. Qed.
Lemma ro_of_wp S A (m : M S A) a s : wp m (fun r s' => r = a /\ s' = s) (fun _ => False) s -> m s = Ret a s.
Proof. unfold wp. destruct (m s); try easy. now intros (-> & ->). Qed.

Lemma count_all_ok S (next : node -> M S node) chk last s : forall l fuel, length l <= fuel -> NoDup (l ++ [last]) ->
  (forall l1 x l2, l = l1 ++ x :: l2 -> next x s = Ret (List.hd last l2) s) -> (forall x, In x l -> chk x s = Ret true s) ->
  count_all next chk last fuel (List.hd last l) s = Ret (Some (length l)) s.
Proof.
  induction l as [|x l IH]; intros fuel Lf N H C.
  - destruct fuel; cbn [count_all List.hd]; now rewrite Nat.eqb_refl.
  - destruct fuel as [|f]; [cbn in Lf; lia|]. cbn [count_all List.hd]. inversion N as [|? ? N1 N2]; subst.
    destruct (Nat.eqb_spec x last) as [->|_]. { exfalso. apply N1. rewrite in_app_iff. cbn. auto. }
    rewrite (rb _ _ (C x (or_introl eq_refl))), (rb _ _ (H [] x l eq_refl)).
    erewrite rb; [|apply IH; auto; [cbn in Lf; lia| |]].
    + reflexivity.
    + intros l1 y l2 ->. apply (H (x :: l1) y l2). reflexivity.
    + intros y I. apply C. now right.
Qed.

(** ** Trees *)
Definition blk (c : color) : nat := if is_black c then 1 else 0.
Fixpoint kblk (k : ctx) : nat := match k with Top => 0 | CL c _ _ _ k | CR c _ _ _ k => blk c + kblk k end.
Lemma kbh_kblk k : forall n m, kbh k n m -> m = n + kblk k.
Proof.
  induction k as [|c m0 x r k IH|c m0 l x k IH]; cbn; intros n m; [intros ->; lia|..]; intros (_ & H); apply IH in H; subst; destruct c; cbn; lia.
Qed.

Section Tree.
Variable hd : node.
Variable hs : nat.
Notation tat := (tat hd hs).

Lemma node_cell h k c n a x b : tat h (plug k (T c n a x b)) [] -> h x = Some (mk (rootp a) (rootp b) (cpar hd k) c n).
Proof. intros W. apply tat_open in W. eapply wfc_get; [exact W|]. right. now left. Qed.
Lemma child_l h k c n a x b : tat h (plug k (T c n a x b)) [] -> tat h (plug (CL c n x b k) a) [].
Proof. exact (fun W => W). Qed.
Lemma child_r h k c n a x b : tat h (plug k (T c n a x b)) [] -> tat h (plug (CR c n a x k) b) [].
Proof. exact (fun W => W). Qed.
Lemma root_null h k t : tat h (plug k t) [] -> (rootp t =? null) = match t with E => true | _ => false end.
Proof.
  intros W. destruct t as [|c n a x b]; [reflexivity|]. apply Nat.eqb_neq. cbn. intros ->.
  destruct (tat_nodup_in W) as (_ & _ & N). apply N. rewrite inorder_plug, !in_app_iff. cbn. rewrite in_app_iff. cbn. auto.
Qed.
Lemma red_ok h k t : tat h (plug k t) [] -> nonnull_red (rootp t) h = Ret (is_red (colr t)) h.
Proof.
  intros W. unfold nonnull_red. rewrite (root_null _ _ W). destruct t as [|c n a x b]; [reflexivity|].
  cbn [rootp colr]. unfold bind, gc, OrdModel.rd. now rewrite (node_cell _ _ _ _ _ _ W).
Qed.
Lemma size_ok h k t : tat h (plug k t) [] -> node_size (rootp t) h = Ret (cnt t) h.
Proof.
  intros W. unfold node_size. rewrite (root_null _ _ W). destruct t as [|c n a x b]; [reflexivity|].
  cbn [rootp cnt]. unfold gs, OrdModel.rd. now rewrite (node_cell _ _ _ _ _ _ W).
Qed.
Lemma black_loop_ok h k : forall fuel c n a x b sum, tat h (plug k (T c n a x b)) [] -> klen k < fuel ->
  black_loop fuel x (kroot k x) sum h = Ret (sum + blk c + kblk k) h.
Proof.
  assert (step : forall k c n a x b, tat h (plug k (T c n a x b)) [] -> k <> Top -> (x =? kroot k x) = false).
  { intros k0 c n a x b W N. apply Nat.eqb_neq. eapply ctx_disj; [exact W| |now apply kroot_in]. cbn. rewrite in_app_iff. cbn. auto. }
  induction k as [|c' n' y r k IH|c' n' l y k IH]; intros fuel c n a x b sum W Fu; (destruct fuel as [|f]; [lia|]);
    cbn [black_loop]; unfold bind at 1, gc, OrdModel.rd; rewrite (node_cell _ _ _ _ _ _ W); cbn [cc].
  - cbn [kroot kblk]. rewrite Nat.eqb_refl. unfold ret, blk. f_equal. destruct (is_black c); lia.
  - rewrite (step _ _ _ _ _ _ W) by easy. unfold bind, gp, OrdModel.rd. rewrite (node_cell _ _ _ _ _ _ W). cbn [cp cpar kroot].
    cbn in Fu. rewrite (IH f c' n' (T c n a x b) y r _ W) by lia. cbn [kblk]. f_equal. unfold blk. destruct (is_black c); lia.
  - rewrite (step _ _ _ _ _ _ W) by easy. unfold bind, gp, OrdModel.rd. rewrite (node_cell _ _ _ _ _ _ W). cbn [cp cpar kroot].
    cbn in Fu. rewrite (IH f c' n' l y (T c n a x b) _ W) by lia. cbn [kblk]. f_equal. unfold blk. destruct (is_black c); lia.
Qed.
(** nodes without two children are equally far from the root *)
Lemma black_count_ok h t k c n a x b m fuel : tat h t [] -> t = plug k (T c n a x b) -> bh t m -> a = E \/ b = E -> OrdTree.size t < fuel ->
  black_count fuel x (rootp t) h = Ret m h.
Proof.
  intros W -> B D Fu. assert (Nn := root_null _ _ W). cbn in Nn. unfold black_count. rewrite Nn. rewrite rootp_plug. cbn [rootp].
  rewrite (@black_loop_ok h k fuel c n a x b 0 W).
  - apply bh_plug in B as (j & B & Kb). apply kbh_kblk in Kb. f_equal. subst m. f_equal.
    inversion B as [|? ? ? ? ? B1 B2|? ? ? ? ? B1 B2]; subst; (destruct D as [-> | ->]; [inversion B1|inversion B2]); subst; reflexivity.
  - assert (Q := klen_size k (T c n a x b)). cbn [OrdTree.size] in Q. lia.
Qed.
Lemma first_focus t : t <> E -> exists k c n x b, t = plug k (T c n E x b) /\ forall d, List.hd d (inorder t) = x.
Proof.
  induction t as [|c n a IH x b _]; [easy|]. intros _. destruct a as [|c' n' a1 y a2].
  - exists Top, c, n, x, b. auto.
  - destruct IH as (k & c0 & n0 & z & b0 & E1 & E2); [easy|]. exists (kapp k (CL c n x b Top)), c0, n0, z, b0.
    split; [rewrite plug_kapp, <- E1; reflexivity|]. intros d. rewrite <- (E2 d). cbn [inorder]. now destruct (inorder a1).
Qed.
End Tree.

Section Kinds.
Variable V : Type.
Variable dv : V.
Variable hd : node.
Variable L : Layer V.
Hypothesis gs_ : forall s, bset L (bget L s) s = s.
Variable s : St L.
Notation vl := (val dv (bget L s)).

Lemma sval_ok T (t : T) x : live (bget L s) x -> supM (basM L (value x)) (t, s) = Ret (vl x) (t, s).
Proof.
  intros Lv. apply sup_ro. unfold basM, lensM, value. apply live_val with (dv := dv) in Lv. rewrite Lv. now rewrite gs_.
Qed.
Lemma ssize_ok T (t : T) : supM (size L) (t, s) = Ret (cget L s) (t, s).
Proof. reflexivity. Qed.

Section Ordered.
Variable K : Type.
Variable key : V -> K.
Variable lt : K -> K -> bool.
Variable uniq rk : bool.
Hypothesis SW : swo lt.
Lemma rel_lt a b : rel lt uniq a b = true -> lt b a = false.
Proof.
  unfold rel. destruct uniq.
  - intros E1. destruct (lt b a) eqn:E2; auto. assert (X := w_trans SW _ _ _ E1 E2). now rewrite (w_irr SW) in X.
  - apply Bool.negb_true_iff.
Qed.
Variable h : OrdModel.heap.
Variable t : OrdTree.tree.
Variable hs : nat.
Hypothesis W : tat hd hs h t [].
Hypothesis RB : rbt rk t.
Hypothesis So : sorted key lt uniq vl (inorder t).
Hypothesis Lv : forall x, In x (inorder t) -> live (bget L s) x.
Hypothesis Sz : cget L s = length (inorder t).

Lemma tree_ro A (f : nat -> HM A) a : f (cget L s + 4) h = Ret a h -> OrdIdx.tree L f (h, s) = Ret a (h, s).
Proof. intros E1. unfold OrdIdx.tree. rewrite (rb _ _ (ssize_ok h)). now apply own_ro. Qed.
Lemma sorted_pair l1 l2 y z : inorder t = l1 ++ l2 -> In y l1 -> In z l2 -> lt (key (vl z)) (key (vl y)) = false.
Proof.
  intros E1 I J. assert (So0 := So). unfold sorted in So0. rewrite E1 in So0. apply in_split in I as (p & q & ->). rewrite <- app_assoc in So0. cbn [app] in So0.
  apply rel_lt. clear -So0 J. induction p as [|w p IH]; cbn in So0; inversion So0 as [|? ? S1 F]; subst; auto.
  rewrite Forall_forall in F. apply F. rewrite in_app_iff. auto.
Qed.
Lemma o_node m x : bh t m -> In x (inorder t) -> o_node_ok key lt rk m (rootp t) x (h, s) = Ret true (h, s).
Proof.
  intros B I. destruct (@focus t x I) as (k & c & n & a & b & E0). assert (W0 := W). rewrite E0 in W0.
  assert (Cx := node_cell _ _ _ _ _ _ W0). unfold o_node_ok.
  erewrite rb by (apply own_ro; unfold gc, OrdModel.rd; rewrite Cx; reflexivity). cbn [cc].
  erewrite rb by (apply own_ro; unfold gl, OrdModel.rd; rewrite Cx; reflexivity). cbn [cl].
  erewrite rb by (apply own_ro; unfold gr, OrdModel.rd; rewrite Cx; reflexivity). cbn [cr].
  erewrite rb by (apply own_ro, (red_ok _ _ (child_l _ _ _ _ _ _ W0))).
  erewrite rb by (apply own_ro, (red_ok _ _ (child_r _ _ _ _ _ _ W0))).
  destruct RB as (NR & _ & _ & Sd). rewrite E0 in NR, Sd. apply norr_plug in NR as ((_ & _ & NR) & _).
  assert (X1 : is_red c && (is_red (colr a) || is_red (colr b)) = false).
  { destruct c; cbn; auto. destruct (NR eq_refl) as (-> & ->). reflexivity. }
  rewrite X1. clear X1. rewrite (rb _ _ (@sval_ok _ h x (Lv _ I))).
  rewrite (root_null _ _ (child_l _ _ _ _ _ _ W0)), (root_null _ _ (child_r _ _ _ _ _ _ W0)).
  assert (In0 : inorder t = (lefts k ++ inorder a) ++ x :: inorder b ++ rights k).
  { rewrite E0, inorder_plug. cbn [inorder]. rewrite <- !app_assoc. reflexivity. }
  assert (X2 : (if match a with E => true | _ => false end then ret false
                else w <- oval L (rootp a) ;; ret (lt (key (vl x)) (key w))) (h, s) = Ret false (h, s)).
  { destruct a as [|ca na a1 y a2]; [reflexivity|]. cbn [rootp].
    assert (J : In y (lefts k ++ inorder (T ca na a1 y a2))) by (rewrite in_app_iff; cbn; rewrite in_app_iff; cbn; auto).
    assert (J' : In y (inorder t)) by (rewrite In0, in_app_iff; auto).
    unfold oval. rewrite (rb _ _ (@sval_ok _ h y (Lv _ J'))). unfold ret. f_equal. eapply sorted_pair; [exact In0|exact J|now left]. }
  rewrite (rb _ _ X2). clear X2.
  assert (X3 : (if match b with E => true | _ => false end then ret false
                else w <- oval L (rootp b) ;; ret (lt (key w) (key (vl x)))) (h, s) = Ret false (h, s)).
  { destruct b as [|cb nb b1 y b2]; [reflexivity|]. cbn [rootp].
    assert (J : In y (inorder (T cb nb b1 y b2) ++ rights k)) by (rewrite in_app_iff; cbn; rewrite in_app_iff; cbn; auto).
    assert (J' : In y (inorder t)) by (rewrite In0, in_app_iff; cbn [In]; auto).
    unfold oval. rewrite (rb _ _ (@sval_ok _ h y (Lv _ J'))). unfold ret. f_equal.
    apply (@sorted_pair ((lefts k ++ inorder a) ++ [x]) (inorder (T cb nb b1 y b2) ++ rights k)); auto;
      [rewrite In0, <- !app_assoc; reflexivity|rewrite in_app_iff; cbn; auto]. }
  rewrite (rb _ _ X3). clear X3.
  assert (X4 : (if match a with E => true | _ => false end && match b with E => true | _ => false end
                then n0 <- OrdIdx.tree L (fun f => black_count f x (rootp t)) ;; ret (negb (n0 =? m)) else ret false) (h, s) = Ret false (h, s)).
  { destruct a; [|reflexivity]. destruct b; [|reflexivity]. cbn [andb].
    erewrite rb; [|apply tree_ro; eapply black_count_ok; [exact W|exact E0|exact B|now left|rewrite size_inorder; lia]].
    rewrite Nat.eqb_refl. reflexivity. }
  rewrite (rb _ _ X4). clear X4. cbv match beta. destruct rk; [|reflexivity].
  erewrite rb by (apply own_ro; unfold OrdModel.gs, OrdModel.rd; rewrite Cx; reflexivity). cbn [OrdModel.cs].
  erewrite rb by (apply own_ro, (size_ok _ _ (child_l _ _ _ _ _ _ W0))).
  erewrite rb by (apply own_ro, (size_ok _ _ (child_r _ _ _ _ _ _ W0))).
  specialize (Sd eq_refl). apply sized_plug in Sd as ((-> & Sa & Sb) & _).
  rewrite (cnt_size _ Sa), (cnt_size _ Sb). unfold ret. now rewrite Nat.eqb_refl.
Qed.
Lemma o_step l1 x l2 : inorder t = l1 ++ x :: l2 -> o_next L x (h, s) = Ret (List.hd hd l2) (h, s).
Proof.
  intros E1. apply tree_ro, ro_of_wp. apply (@increment_spec hd hs _ t [] h l1 x l2 W E1). rewrite size_inorder. lia.
Qed.
Lemma o_inv : @o_invariant V hd K key lt rk L (h, s) = Ret true (h, s).
Proof.
  unfold o_invariant. rewrite (rb _ _ (ssize_ok h)).
  assert (Ch : h hd = Some (hcell hd hs t)) by (eapply wfc_get; [exact W|]; now left).
  unfold o_begin. erewrite rb by (apply own_ro; unfold gl, OrdModel.rd; rewrite Ch; reflexivity). cbn [cl hcell].
  destruct (tat_nodup_in W) as (Nd & Nh & Nn).
  assert (ND : NoDup (inorder t ++ [hd])).
  { apply NoDup_app_iff. splits; auto; [constructor; [easy|constructor]|]. intros y I [->|[]]. auto. }
  destruct t as [|c n a r b] eqn:Et.
  - cbn [inorder List.hd] in *. rewrite Nat.eqb_refl, Bool.orb_true_r.
    erewrite rb by (apply own_ro; unfold gl, OrdModel.rd; rewrite Ch; reflexivity).
    erewrite rb by (apply own_ro; unfold gr, OrdModel.rd; rewrite Ch; reflexivity).
    rewrite Sz. cbn. now rewrite Nat.eqb_refl.
  - rewrite <- Et in *. assert (NE : t <> E) by congruence.
    destruct (@first_focus t NE) as (k & c0 & n0 & x0 & b0 & F1 & F2).
    assert (I0 : In x0 (inorder t)) by (rewrite F1, inorder_plug, !in_app_iff; cbn; auto).
    assert (X1 : (cget L s =? 0) = false). { apply Nat.eqb_neq. rewrite Sz. destruct (inorder t); [easy|cbn; lia]. }
    assert (X2 : (List.hd hd (inorder t) =? hd) = false). { apply Nat.eqb_neq. rewrite F2. intros ->. auto. }
    rewrite X1, X2. cbn [orb].
    erewrite rb; [|apply count_all_ok; auto; [lia|exact o_step]]. cbn [is_count]. rewrite <- Sz, Nat.eqb_refl. cbn [negb].
    erewrite rb by (apply own_ro; unfold gl, OrdModel.rd; rewrite Ch; reflexivity).
    erewrite rb by (apply own_ro; unfold gp, OrdModel.rd; rewrite Ch; reflexivity). cbn [cl cp hcell].
    destruct RB as (_ & (m & B) & _).
    erewrite rb; [|apply tree_ro; rewrite F2; eapply black_count_ok; [exact W|exact F1|exact B|now left|rewrite size_inorder; lia]].
    erewrite rb; [|apply count_all_ok; auto; [lia|exact o_step|intros x I; now apply o_node]]. cbn [is_count]. rewrite <- Sz, Nat.eqb_refl. cbn [negb].
    erewrite rb; [|apply tree_ro, ro_of_wp; eapply (@minimum_spec t) with (p := hd); [exact W|csub|exact NE|rewrite size_inorder; lia]].
    rewrite !F2, Nat.eqb_refl. cbn [negb].
    erewrite rb by (apply own_ro; unfold gr, OrdModel.rd; rewrite Ch; reflexivity). cbn [cr hcell].
    erewrite rb; [|apply tree_ro, ro_of_wp; eapply (@maximum_spec t) with (p := hd); [exact W|csub|exact NE|rewrite size_inorder; lia]].
    unfold ret. do 2 f_equal. apply Nat.eqb_eq. destruct (exists_last (l := inorder t)) as (u & w & ->); [|now rewrite !last_last].
    intros Q. rewrite Q in I0. easy.
Qed.
End Ordered.

Lemma s_inv t l : wf t [hd :: l] [] -> cget L s = length l -> s_invariant hd L (t, s) = Ret true (t, s).
Proof.
  intros W Sz. unfold s_invariant. rewrite (rb _ _ (ssize_ok t)).
  assert (W' := W). destruct W' as (Rg & ND & _). apply Forall_inv in Rg. cbn in ND. rewrite !app_nil_r in ND.
  assert (Nx : forall l1 x l2, hd :: l = l1 ++ x :: l2 -> get_next x t = Ret (List.hd hd l2) t).
  { intros l1 x l2 E1. assert (A : adj (R t) (l1 ++ x :: l2 ++ [hd])).
    { replace (l1 ++ x :: l2 ++ [hd]) with ((hd :: l) ++ [hd]) by (rewrite E1, <- app_assoc; reflexivity). exact Rg. }
    assert (X : R t x (List.hd hd l2)).
    { clear -A. induction l1 as [|y l1 IH]; cbn [app] in A; [destruct l2; cbn in A; apply A|apply IH; destruct l1; cbn in A |- *; apply A]. }
    unfold get_next. now rewrite (proj1 X). }
  assert (Pr : forall x, In x (hd :: l) -> s_node_ok L x (t, s) = Ret true (t, s)).
  { intros x I. destruct (ring_in _ _ _ Rg I) as ((q & _ & Q1 & Q2) & (n & _ & N1 & N2)). unfold s_node_ok.
    erewrite rb by (apply own_ro; unfold get_next; rewrite N1; reflexivity).
    erewrite rb by (apply own_ro; unfold get_prior; rewrite N2; reflexivity). rewrite Nat.eqb_refl. cbn [negb].
    erewrite rb by (apply own_ro; unfold get_prior; rewrite Q2; reflexivity).
    erewrite rb by (apply own_ro; unfold get_next; rewrite Q1; reflexivity). now rewrite Nat.eqb_refl. }
  erewrite rb by (apply own_ro; exact (Nx [] hd l eq_refl)).
  destruct l as [|x l].
  - cbn [List.hd]. rewrite Nat.eqb_refl, Bool.orb_true_r. erewrite rb by (apply own_ro; exact (Nx [] hd [] eq_refl)).
    destruct (ring_in _ _ _ Rg (or_introl eq_refl)) as ((q & [<-|[]] & _ & Q) & _).
    erewrite rb by (apply own_ro; unfold get_prior; rewrite Q; reflexivity). rewrite Sz. cbn. now rewrite Nat.eqb_refl.
  - assert (X1 : (cget L s =? 0) = false) by (rewrite Sz; reflexivity).
    assert (X2 : (x =? hd) = false). { apply Nat.eqb_neq. intros ->. inversion ND as [|? ? N1 _]; subst. apply N1. now left. }
    rewrite X1. cbn [List.hd]. rewrite X2. cbn [orb].
    erewrite rb; [|apply (@count_all_ok _ _ _ _ _ (x :: l)); [lia| | |]].
    + cbn [is_count]. now rewrite <- Sz, Nat.eqb_refl.
    + eapply NoDup_perm; [|exact ND]. apply Permutation_cons_append.
    + intros l1 y l2 E1. apply own_ro. apply (Nx (hd :: l1)). now rewrite E1.
    + intros y I. apply Pr. now right.
Qed.

Lemma r_inv r l : arr r (l ++ [hd]) -> cget L s = length l -> r_invariant hd L (r, s) = Ret true (r, s).
Proof.
  intros A Sz. unfold r_invariant. rewrite (rb _ _ (ssize_ok r)).
  assert (Ln := a_len A). assert (Cp := a_cap A). rewrite app_length in Ln. cbn in Ln.
  erewrite rb by (apply own_ro; reflexivity). destruct (Nat.ltb_spec (rcap r) (cget L s)) as [Q|_]; [lia|].
  assert (Nd := a_nd A).
  assert (Pr : forall x, In x (l ++ [hd]) -> r_node_ok L x (r, s) = Ret true (r, s)).
  { intros x I. apply In_nth_error in I as (i & I). unfold r_node_ok.
    erewrite rb by (apply own_ro; unfold get_up; rewrite (a_up A _ I); reflexivity).
    erewrite rb by (apply own_ro; unfold RndModel.rd; rewrite (a_slot A _ I); reflexivity). now rewrite Nat.eqb_refl. }
  assert (Bg : r_begin r = Ret (List.hd hd l) r).
  { unfold r_begin, a_begin, bind, RndModel.rd. assert (X : nth_error (l ++ [hd]) 0 = Some (List.hd hd l)) by now destruct l.
    apply (a_slot A) in X. rewrite Nat.add_0_r in X. now rewrite X. }
  rewrite (rb _ _ (own_ro _ _ Bg)).
  destruct l as [|x l].
  - cbn [List.hd]. rewrite Nat.eqb_refl, Sz. reflexivity.
  - assert (X1 : (cget L s =? 0) = false) by (rewrite Sz; reflexivity).
    assert (X2 : (x =? hd) = false). { apply Nat.eqb_neq. intros ->. inversion Nd as [|? ? N1 _]; subst. apply N1. rewrite in_app_iff. cbn. auto. }
    rewrite X1. cbn [List.hd]. rewrite X2. cbn [orb].
    erewrite rb; [|apply (@count_all_ok _ _ _ _ _ (x :: l)); [lia|exact Nd| |]].
    + assert (Ih : In hd ((x :: l) ++ [hd])) by (rewrite in_app_iff; cbn; auto). cbv match. rewrite (rb _ _ (Pr hd Ih)). cbn [andb is_count]. now rewrite <- Sz, Nat.eqb_refl.
    + intros l1 y l2 E1. rewrite E1 in A. rewrite <- app_assoc in A. cbn [app] in A. apply own_ro.
      assert (U : nth_error (l1 ++ y :: l2 ++ [hd]) (length l1) = Some y) by (rewrite nth_error_app2, Nat.sub_diag by lia; reflexivity).
      assert (N : nth_error (l1 ++ y :: l2 ++ [hd]) (length l1 + 1) = Some (List.hd hd l2)).
      { rewrite nth_error_app2 by lia. replace (length l1 + 1 - length l1) with 1 by lia. now destruct l2. }
      apply (a_up A) in U. apply (a_slot A) in N. unfold RndModel.increment, get_up, bind, RndModel.rd.
      rewrite U. rewrite <- Nat.add_assoc. now rewrite N.
    + intros y I. apply Pr. rewrite in_app_iff. auto.
Qed.

Lemma sum_buckets (f : node -> nat) n : forall l, (forall x, In x l -> f x < n) ->
  list_sum (map (fun i => length (filter (fun y => f y =? i) l)) (seq 0 n)) = length l.
Proof.
  induction l as [|x l IH]; intros H.
  - induction (seq 0 n); cbn in *; auto.
  - cbn [length]. rewrite <- IH by (intros y I; apply H; now right). assert (Hx : f x < n) by (apply H; now left).
    assert (G : forall q a, list_sum (map (fun i => length (filter (fun y => f y =? i) (x :: l))) (seq a q))
      = (if (a <=? f x) && (f x <? a + q) then 1 else 0) + list_sum (map (fun i => length (filter (fun y => f y =? i) l)) (seq a q))).
    { induction q as [|q IHq]; intros a.
      - cbn [seq map]. destruct (Nat.leb_spec a (f x)), (Nat.ltb_spec (f x) (a + 0)); cbn; auto. lia.
      - cbn [seq map list_sum fold_right]. specialize (IHq (S a)). unfold list_sum in IHq. rewrite IHq. cbn [filter].
        destruct (Nat.eqb_spec (f x) a), (Nat.leb_spec (S a) (f x)), (Nat.ltb_spec (f x) (S a + q)), (Nat.leb_spec a (f x)), (Nat.ltb_spec (f x) (a + S q)); cbn [andb length]; lia. }
    rewrite G. cbn [Nat.leb andb Nat.add]. destruct (Nat.ltb_spec (f x) n); lia.
Qed.

Section Hashed.
Variable K : Type.
Variable key : V -> K.
Variable eq : K -> K -> bool.
Variable hash : K -> nat.
Variable uniq : bool.
Variable t : HashIdx.hst.
Variable a : HashSpec.hav.
Hypothesis H : HashOk.hhas uniq hd t a.
Hypothesis Ok : HashSpec.hok key eq hash uniq vl a.
Notation el := (HashLay.elems (snd a)).
Hypothesis Lv : forall x, In x el -> live (bget L s) x.
Hypothesis Sz : cget L s = length el.
Notation within := (HashPoint.within dv key hash L t s (snd a)).

Lemma within_len i : length (within i) <= length el.
Proof. unfold HashPoint.within. clear. induction el as [|x l IH]; cbn; auto. destruct (_ =? i); cbn; lia. Qed.
Lemma begin_local_ro i : i < HashIdx.bc t -> HashIdx.begin_local L i (t, s) = Ret (List.hd null (within i)) (t, s).
Proof.
  intros Li. unfold HashIdx.begin_local. erewrite rb by reflexivity. apply HashView.hp_ro.
  destruct H as (E1 & _ & W & _ & Hp). destruct Ok as (G & CL). rewrite <- E1 in CL. rewrite <- (app_nil_r (HashHeap.layout _ _ _ _)) in Hp.
  eapply HashPoint.begin_local_ok; eauto.
Qed.
Lemma next_local_ro i b1 x b2 : within i = b1 ++ x :: b2 -> HashIdx.next_local uniq L x (t, s) = Ret (List.hd null b2) (t, s).
Proof.
  intros E0. apply HashView.hp_ro. destruct H as (E1 & _ & W & U & Hp). destruct Ok as (G & CL). rewrite <- E1 in CL. rewrite <- (app_nil_r (HashHeap.layout _ _ _ _)) in Hp.
  eapply HashPoint.next_local_ok; eauto. lia.
Qed.
Lemma within_null i : ~ In null (within i).
Proof.
  intros I. apply filter_In in I as (I & _). destruct H as (_ & _ & W & _). exact (HashLay.wfi_null W I).
Qed.
Lemma within_nd i : NoDup (within i ++ [null]).
Proof.
  apply NoDup_app_iff. splits.
  - apply NoDup_filter. assert (N := HashOk.hhas_nd H). now inversion N.
  - constructor; [easy|constructor].
  - intros x I [<-|[]]. exact (within_null _ I).
Qed.
Lemma bucket_loop_ro i : forall b2 b1 fuel res, within i = b1 ++ b2 -> length b2 < fuel ->
  HashIdx.bucket_loop uniq L fuel (List.hd null b2) res (t, s) = Ret (res + length b2) (t, s).
Proof.
  induction b2 as [|x b2 IH]; intros b1 fuel res E0 Lf; destruct fuel as [|fuel]; try (cbn in Lf; lia); cbn [HashIdx.bucket_loop List.hd].
  - cbn [Nat.eqb null]. unfold ret. cbn [length]. now rewrite Nat.add_0_r.
  - destruct (Nat.eqb_spec x null) as [->|_]. { exfalso. apply (within_null i). rewrite E0, in_app_iff. cbn. auto. }
    assert (X := next_local_ro _ _ _ _ E0). unfold HashIdx.next_local in X. rewrite (rb _ _ X).
    rewrite (IH (b1 ++ [x])); [cbn [length]; now rewrite Nat.add_succ_r|now rewrite <- app_assoc|cbn in Lf; lia].
Qed.
Lemma bucket_size_ro i : i < HashIdx.bc t -> HashIdx.bucket_size uniq L i (t, s) = Ret (length (within i)) (t, s).
Proof.
  intros Li. unfold HashIdx.bucket_size. erewrite rb by reflexivity.
  assert (X := begin_local_ro Li). unfold HashIdx.begin_local in X. erewrite rb in X by reflexivity. rewrite (rb _ _ X).
  erewrite rb by reflexivity. apply (bucket_loop_ro i (within i) []); auto. assert (Y := within_len i). cbn [snd]. lia.
Qed.
Lemma h_buckets_ok : forall k buc s1, buc + k <= HashIdx.bc t ->
  @h_buckets V K key hash uniq L k buc s1 (t, s) = Ret (Some (s1 + list_sum (map (fun i => length (within i)) (seq buc k)))) (t, s).
Proof.
  induction k as [|k IH]; intros buc s1 Lb; cbn [h_buckets].
  - cbn. now rewrite Nat.add_0_r.
  - assert (Lb' : buc < HashIdx.bc t) by lia. rewrite (rb _ _ (begin_local_ro Lb')). rewrite (rb _ _ (ssize_ok t)).
    erewrite rb; [|apply count_all_ok; [rewrite Sz; apply within_len|apply within_nd|exact (next_local_ro buc)|]].
    + cbv match. rewrite (rb _ _ (bucket_size_ro Lb')), Nat.eqb_refl, IH by lia. cbn [seq map list_sum fold_right]. do 2 f_equal. unfold list_sum. lia.
    + intros x I. apply filter_In in I as (I & P). unfold h_node_ok, HashIdx.oval. rewrite (rb _ _ (sval_ok t (Lv _ I))).
      erewrite rb by reflexivity. cbn [fst]. unfold ret. now rewrite P.
Qed.
Lemma h_inv : @h_invariant V hd K key hash uniq L (t, s) = Ret true (t, s).
Proof.
  unfold h_invariant. rewrite (rb _ _ (ssize_ok t)), (rb _ _ (HashView.h_begin_ok L s H)).
  assert (N := HashOk.hhas_nd H). assert (N' : NoDup (el ++ [hd])) by (eapply NoDup_perm; [|exact N]; apply Permutation_cons_append).
  assert (HB := h_buckets_ok (HashIdx.bc t) 0 0 (le_n _)). assert (Sz' := Sz).
  assert (NX : forall l1 y l2, el = l1 ++ y :: l2 -> HashIdx.h_next uniq L y (t, s) = Ret (List.hd hd l2) (t, s)).
  { intros l1 y l2 E1. eapply HashView.h_next_ok; [exact H|exact E1]. }
  revert N N' Sz' NX. generalize (eq_refl el). generalize el at 1 3 4 5 6 7. intros [|x l] E0 N N' Sz' NX; rewrite <- ?E0.
  - cbn [List.hd]. rewrite Nat.eqb_refl, Sz'. reflexivity.
  - assert (X1 : (cget L s =? 0) = false) by (rewrite Sz'; reflexivity).
    assert (X2 : (x =? hd) = false). { apply Nat.eqb_neq. intros ->. inversion N as [|? ? N1 _]; subst. apply N1. now left. }
    rewrite X1. cbn [List.hd]. rewrite X2. cbn [orb].
    erewrite rb; [|apply (@count_all_ok _ _ _ _ _ (x :: l)); [lia|exact N'| |reflexivity]].
    + cbn [is_count]. rewrite <- Sz', Nat.eqb_refl. cbn [negb]. erewrite rb by reflexivity. cbn [fst].
      rewrite (rb _ _ HB). cbn [is_count Nat.add]. unfold HashPoint.within.
      rewrite sum_buckets; [now rewrite <- E0, <- Sz', Nat.eqb_refl|].
      intros y _. destruct H as (_ & T & _). apply HashRehash.tabled_pos in T. unfold HashModel.position. apply Nat.mod_upper_bound. lia.
    + exact NX.
Qed.
End Hashed.
End Kinds.

Section World.
Variable V : Type.
Variable throws : nat -> bool.
Variable pick : list node -> node.
Variable dv : V.
Variable hd : node.
Variable W : World V.
Variable AW : Type.
Variable wrep : WS W -> AW -> Prop.
Variable wready : node -> AW -> Prop.
Variable wrem : node -> AW -> AW.
Hypothesis pick_ok : forall l, ~ In (pick l) (null :: l).
Hypothesis OW : WOK W wrep wready wrem.
Notation stack := (stack throws pick hd W).
Notation spec := (spec hd wready wrem).
Notation srep := (srep throws pick hd W wrep wready wrem).

Theorem invariant_ok cs : Forall (@code_ok V) cs -> forall s a lk, srep cs s a -> aok (spec cs) (val dv (bget (stack cs) s)) a ->
  Forall (fun l => Permutation l lk) (els (spec cs) a) -> (forall x, In x lk -> live (bget (stack cs) s) x) ->
  cget (stack cs) s = length lk -> invariant throws pick hd W cs s = Ret true s.
Proof.
  induction 1 as [|c cs C F IH]; intros s a lk R A P Lv Sz; [reflexivity|].
  assert (G := o_gs (@stack_ok V throws pick dv hd W AW wrep wready wrem pick_ok OW cs F)). cbn [invariant]. cbn in P. inversion P as [|? ? P1 P2]; subst. destruct A as (A1 & A2).
  assert (Lp := Permutation_length P1).
  assert (I : i_invariant throws pick hd c (stack cs) s = Ret true s).
  { destruct c, s as (t, s); cbn in *.
    - destruct R as ((t0 & hs & T & B & E0) & _). cbn in T, E0. rewrite <- E0 in *. eapply o_inv; eauto; [|exact (eq_trans Sz (eq_sym Lp))].
      intros x I. apply Lv. eapply Permutation_in; eauto.
    - destruct R as (T & _). eapply s_inv; [exact T|exact (eq_trans Sz (eq_sym Lp))].
    - destruct R as (T & _). eapply r_inv; [exact T|exact (eq_trans Sz (eq_sym Lp))].
    - destruct R as (T & _). eapply h_inv; [exact G|exact T|exact A1| |exact (eq_trans Sz (eq_sym Lp))].
      intros x I. apply Lv. eapply Permutation_in; eauto. }
  rewrite (rb _ _ I).
  assert (U : forall s0, s0 = below throws pick hd c (stack cs) s -> invariant throws pick hd W cs s0 = Ret true s0).
  { intros s0 ->. apply (IH _ (snd a) lk); auto.
    - exact (@below_ok _ _ _ _ c _ _ _ _ _ R).
    - destruct c, s; exact A2.
    - destruct c, s; exact Lv.
    - destruct c, s; exact Sz. }
  destruct c, s as (t, s); cbn [lift]; apply sup_ro; apply U; reflexivity.
Qed.
End World.
