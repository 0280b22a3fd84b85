(** C59: invariant checking never fails, and what it detects. *)
From Verif Require Import Prelude SeqModel SeqHeap OrdModel OrdIdx RndModel Layer LayerBase Stack View Container ContOk Iops History ContSpec Client Many ManyOk
  ContEx Inv InvOk.
From Verif Require HashModel HashIdx ManyProps.
Set Implicit Arguments.

Section Props.
Variable V : Type.
Variable throws : nat -> bool.
Variable pick : list node -> node.
Variable dv : V.
Variable hd : node.
Variable cs : list (code V).
Hypothesis St_ : setting pick hd cs.

(** in any state at which a client arrives, by operations some of which may have thrown, invariant_() is true: with
    BOOST_MULTI_INDEX_ENABLE_INVARIANT_CHECKING no assertion fails *)
Theorem C59_invariant s lk nh : reachable throws pick hd cs s lk nh -> invariant throws pick hd (mem_world V) cs s = Ret true s.
Proof.
  intros R. destruct (reachable_good dv St_ R) as ((a & G) & _). destruct G as [Rp I C A _].
  eapply (@invariant_ok V throws pick dv); [apply (s_pick St_)|apply mem_world_ok|apply (s_codes St_)|exact Rp|exact A|exact (i_perm I)|exact (i_live I)|exact C].
Qed.
End Props.

(** the same of each container of a program with any number of containers *)
Theorem C59_invariants V throws pick (dv : V) mlf1 (pick_ok : forall l, ~ In (pick l) (null :: l)) w lks nh x :
  @reachw V throws pick mlf1 w lks nh -> In x (objs w) -> invariant throws pick (oh x) (mem_world V) (oc x) (os x) = Ret true (os x).
Proof.
  intros R J. destruct (@reachw_ok V throws pick dv mlf1 pick_ok w lks nh R) as (es & (E & I) & _).
  rewrite <- E in J. apply in_map_iff in J as ((x', lk) & <- & J). assert (F := v_fine I). rewrite Forall_forall in F.
  destruct (F _ J) as (S1 & _ & a & out & G). cbn [fst snd] in *. destruct G as [Rp J1 C A _].
  eapply (@invariant_ok V throws pick dv); [exact pick_ok|apply mem_world_ok|apply (s_codes S1)|exact Rp|exact A|exact (i_perm J1)|exact (i_live J1)|exact C].
Qed.

(** ** what is detected, of a state however damaged *)
Definition RO {S A} (m : M S A) : Prop := forall s a s', m s = Ret a s' -> s' = s.
Lemma ro_ret S A (a : A) : RO (@ret S A a).
Proof. intros s b s' E. now inversion E. Qed.
Lemma ro_ub S A : RO (@ub S A).
Proof. intros s b s' E. discriminate. Qed.
Lemma ro_bind S A B (m : M S A) (k : A -> M S B) : RO m -> (forall a, RO (k a)) -> RO (bind m k).
Proof.
  intros Hm Hk s b s' E. unfold bind in E. destruct (m s) as [a s1|s1|] eqn:E1; try discriminate.
  rewrite (Hk _ _ _ _ E). exact (Hm _ _ _ E1).
Qed.
Lemma ro_own T S A (m : M T A) : RO m -> RO (@ownM T S A m).
Proof.
  intros H (t, s) a s' E. unfold ownM, lensM in E. cbn in E. destruct (m t) as [b t'|t'|] eqn:E1; try discriminate.
  apply H in E1. subst. now inversion E.
Qed.
Lemma ro_sup T S A (m : M S A) : RO m -> RO (@supM T S A m).
Proof.
  intros H (t, s) a s' E. unfold supM, lensM in E. cbn in E. destruct (m s) as [b t'|t'|] eqn:E1; try discriminate.
  apply H in E1. subst. now inversion E.
Qed.
Lemma ro_size V (L : Layer V) : RO (size L).
Proof. intros s a s' E. now inversion E. Qed.
Lemma ro_if S A (b : bool) (m n : M S A) : RO m -> RO n -> RO (if b then m else n).
Proof. now destruct b. Qed.
Lemma ro_ord A (f : cell -> A) x : RO (OrdModel.rd f x).
Proof. intros h a h' E. unfold OrdModel.rd in E. destruct (h x); [now inversion E|discriminate]. Qed.
Lemma ro_next x : RO (get_next x).
Proof. intros h a h' E. unfold get_next in E. destruct (nx h x); [now inversion E|discriminate]. Qed.
Lemma ro_prior x : RO (get_prior x).
Proof. intros h a h' E. unfold get_prior in E. destruct (pr h x); [now inversion E|discriminate]. Qed.
Lemma ro_up x : RO (get_up x).
Proof. intros h a h' E. unfold get_up in E. destruct (rup h x); [now inversion E|discriminate]. Qed.
Lemma ro_slot x : RO (RndModel.rd x).
Proof. intros h a h' E. unfold RndModel.rd in E. destruct (slot h x); [now inversion E|discriminate]. Qed.
Lemma ro_cap : RO get_cap.
Proof. intros h a h' E. now inversion E. Qed.
Lemma ro_abegin : RO a_begin.
Proof. intros h a h' E. now inversion E. Qed.
Lemma ro_loc x : RO (HashModel.rd x).
Proof. intros h a h' E. unfold HashModel.rd in E. destruct (h x); [now inversion E|discriminate]. Qed.
Lemma ro_pfrom x : RO (HashModel.pfrom x).
Proof. destruct x; [apply ro_ret|apply ro_ub]. Qed.
Lemma ro_hp V (L : Layer V) A (m : HashModel.HM A) : RO m -> RO (HashIdx.hpM L m).
Proof.
  intros H. apply ro_own. intros t a t' E. unfold lensM in E. destruct (m (HashIdx.hp t)) as [b h|h|] eqn:E1; try discriminate.
  apply H in E1. subst. inversion E; subst. apply HashPoint.set_hp_self.
Qed.
Ltac ro := repeat first [apply ro_ret | apply ro_ub | apply ro_ord | apply ro_next | apply ro_prior | apply ro_up | apply ro_slot | apply ro_cap
  | apply ro_abegin | apply ro_loc | apply ro_pfrom | apply ro_hp | apply ro_own | apply ro_size | apply ro_sup | apply ro_if
  | (apply ro_bind; [|intros ?])].
Lemma ro_minimum : forall f x, RO (minimum f x).
Proof. induction f; intros x; cbn [minimum]; unfold gl; ro. auto. Qed.
Lemma ro_inc_up : forall f x y, RO (inc_up f x y).
Proof. induction f; intros x y; cbn [inc_up]; unfold gr, gp; ro. auto. Qed.
Section Detect.
Variable V : Type.
Variable throws : nat -> bool.
Variable pick : list node -> node.
Variable hd : node.
Notation layer_of := (layer_of throws pick hd).
Notation i_begin := (i_begin throws pick hd).
Notation i_next := (i_next throws pick hd).
Notation enum := (enum throws pick hd).

Lemma ro_begin c (L : Layer V) : RO (i_begin c L).
Proof. destruct c; cbn; unfold o_begin, gl, s_begin, r_begin, HashIdx.h_begin, HashModel.nxt, HashModel.pri; ro. Qed.
Lemma ro_inext c (L : Layer V) x : RO (i_next c L x).
Proof.
  destruct c; cbn; unfold o_next, OrdIdx.tree, OrdModel.increment, gr, gp, SeqModel.increment, RndModel.increment, HashIdx.h_next, HashIdx.after,
    HashModel.u_after, HashModel.n_after, HashModel.n_after_or, HashModel.u_last_of_bucket, HashModel.nxt, HashModel.pri; ro; [apply ro_minimum|apply ro_inc_up].
Qed.
Lemma ro_bind_inv S A B (m : M S A) (k : A -> M S B) s b s' : RO m -> bind m k s = Ret b s' -> exists a, m s = Ret a s /\ k a s = Ret b s'.
Proof.
  intros Hm E. unfold bind in E. destruct (m s) as [a s1|s1|] eqn:E1; try discriminate. assert (X := Hm _ _ _ E1). subst. eauto.
Qed.
Lemma count_walk S (next : node -> M S node) chk last s (Hn : forall x, RO (next x)) (Hc : forall x, RO (chk x)) : forall fuel x n s',
  count_all next chk last fuel x s = Ret (Some n) s' ->
  exists l, walk next last fuel x s = Ret l s /\ length l = n /\ forall y, In y l -> chk y s = Ret true s.
Proof.
  induction fuel as [|f IH]; intros x n s'; cbn [count_all walk]; destruct (x =? last); intros E.
  - inversion E; subst. now exists [].
  - inversion E.
  - inversion E; subst. now exists [].
  - apply ro_bind_inv in E as (b & E1 & E); [|apply Hc]. destruct b; [|discriminate]. apply ro_bind_inv in E as (y & E2 & E); [|apply Hn].
    unfold bind at 1 in E. destruct (count_all next chk last f y s) as [r s1|s1|] eqn:E3; try discriminate. inversion E; subst. destruct r as [k|]; [|discriminate].
    destruct (IH _ _ _ E3) as (l & W & Ln & H). exists (x :: l). rewrite (rb _ _ E2), (rb _ _ W). cbn in *. splits; [reflexivity|congruence|].
    intros z [<-|J]; auto.
Qed.
Lemma ro_count S (next : node -> M S node) chk last (Hn : forall x, RO (next x)) (Hc : forall x, RO (chk x)) : forall f x, RO (count_all next chk last f x).
Proof. induction f as [|f IH]; intros x; cbn [count_all]; ro; auto. Qed.
Lemma walk_fun S (next : node -> M S node) last s (Hn : forall x, RO (next x)) : forall f x l f' l',
  walk next last f x s = Ret l s -> walk next last f' x s = Ret l' s -> l = l'.
Proof.
  induction f as [|f IH]; intros x l f' l' E E'; destruct f' as [|f']; cbn [walk] in E, E'; destruct (x =? last); try discriminate; try congruence.
  apply ro_bind_inv in E as (y & E1 & E); [|apply Hn]. apply ro_bind_inv in E' as (y' & E1' & E'); [|apply Hn].
  assert (y' = y) by congruence. subst. unfold bind in E, E'.
  destruct (walk next last f y s) as [r s1|s1|] eqn:E3; try discriminate. destruct (walk next last f' y s) as [r' s1'|s1'|] eqn:E4; try discriminate.
  inversion E; inversion E'; subst. f_equal. eapply IH; eauto.
Qed.
Lemma walk_suffix S (next : node -> M S node) last s (Hn : forall x, RO (next x)) : forall l1 f x l2 y,
  walk next last f x s = Ret (l1 ++ y :: l2) s -> y <> last /\ exists f', walk next last f' y s = Ret (y :: l2) s.
Proof.
  induction l1 as [|z l1 IH]; intros f x l2 y E; destruct f as [|f]; cbn [walk] in E; destruct (Nat.eqb_spec x last) as [X|X]; try discriminate; try (inversion E; fail).
  - assert (E0 := E). apply ro_bind_inv in E as (w & E1 & E); [|apply Hn]. unfold bind in E. destruct (walk next last f w s) as [r s1|s1|] eqn:E3; try discriminate.
    inversion E; subst. split; auto. exists (Datatypes.S f). cbn [walk]. destruct (Nat.eqb_spec y last); [easy|exact E0].
  - apply ro_bind_inv in E as (w & E1 & E); [|apply Hn]. unfold bind in E. destruct (walk next last f w s) as [r s1|s1|] eqn:E3; try discriminate.
    inversion E; subst. eapply IH; eauto.
Qed.
Lemma walk_nd S (next : node -> M S node) last s (Hn : forall x, RO (next x)) f x l : walk next last f x s = Ret l s -> NoDup (last :: l).
Proof.
  intros E. constructor.
  - intros I. apply in_split in I as (l1 & l2 & ->). apply walk_suffix in E as (E & _); auto.
  - assert (H : forall l1 y l2, l = l1 ++ y :: l2 -> exists f', walk next last f' y s = Ret (y :: l2) s).
    { intros l1 y l2 ->. eapply walk_suffix; eauto. }
    clear E x f. induction l as [|x l IH]; constructor.
    + intros I. apply in_split in I as (l1 & l2 & ->). destruct (H [] x (l1 ++ x :: l2) eq_refl) as (f1 & W1).
      destruct (H (x :: l1) x l2 eq_refl) as (f2 & W2). assert (X := @walk_fun _ next last s Hn _ _ _ _ _ W1 W2). apply (f_equal (@length node)) in X. cbn in X. rewrite app_length in X. cbn in X. lia.
    + apply IH. intros l1 y l2 ->. now apply (H (x :: l1)).
Qed.

(** when invariant_() of an index is true, iterating from begin() to end() comes across size() different nodes,
    whatever the state *)
Theorem C59_counts c (L : Layer V) s s' : i_invariant throws pick hd c L s = Ret true s' ->
  exists l, enum c L s = Ret l s /\ length l = cget (layer_of c L) s /\ NoDup (hd :: l).
Proof.
  intros E.
  assert (X : exists b l, i_begin c L s = Ret b s /\ walk (i_next c L) hd (cget (layer_of c L) s) b s = Ret l s /\ length l = cget (layer_of c L) s).
  { assert (Z : forall b n, (n =? 0) && (b =? hd) = true -> walk (i_next c L) hd n b s = Ret [] s /\ 0 = n).
    { intros b n H. apply andb_prop in H as (-> %Nat.eqb_eq & H). cbn [walk]. now rewrite H. }
    destruct c; cbn [i_invariant i_begin] in *.
    - unfold o_invariant in E. apply ro_bind_inv in E as (n & E1 & E); [|ro]. assert (n = cget L (snd s)) as -> by (destruct s; inversion E1; reflexivity).
      apply ro_bind_inv in E as (b & E2 & E); [|unfold o_begin, gl; ro]. exists b.
      destruct ((cget L (snd s) =? 0) || (b =? hd)).
      + apply ro_bind_inv in E as (x1 & _ & E); [|unfold gl; ro]. apply ro_bind_inv in E as (x2 & _ & E); [|unfold gr; ro]. inversion E as [[E' Es]]; subst s'. 
        apply andb_prop in E' as (E' & _). apply andb_prop in E' as (E' & _). destruct (Z _ _ E') as (Z1 & Z2). exists []. cbn. auto.
      + unfold bind at 1 in E. destruct (count_all _ _ _ _ _ _) as [r s1|s1|] eqn:E3 in E; try discriminate. destruct r as [k|]; [|discriminate].
        destruct (is_count (Some k) (cget L (snd s))) eqn:E4; [|discriminate]. apply Nat.eqb_eq in E4. subst k.
        apply count_walk in E3 as (l & W & Ln & _); [|intros; exact (ro_inext (Ordered key lt uniq rk junk) L x)|intros; ro]. exists l. auto.
    - unfold s_invariant in E. apply ro_bind_inv in E as (n & E1 & E); [|ro]. assert (n = cget L (snd s)) as -> by (destruct s; inversion E1; reflexivity).
      apply ro_bind_inv in E as (b & E2 & E); [|unfold s_begin; ro]. exists b.
      destruct ((cget L (snd s) =? 0) || (b =? hd)).
      + apply ro_bind_inv in E as (x1 & _ & E); [|ro]. apply ro_bind_inv in E as (x2 & _ & E); [|ro]. inversion E as [[E' Es]]; subst s'. 
        apply andb_prop in E' as (E' & _). apply andb_prop in E' as (E' & _). destruct (Z _ _ E') as (Z1 & Z2). exists []. cbn. auto.
      + unfold bind at 1 in E. destruct (count_all _ _ _ _ _ _) as [r s1|s1|] eqn:E3 in E; try discriminate. inversion E as [[E4 E5]]. destruct r as [k|]; [|discriminate].
        apply Nat.eqb_eq in E4. subst k.
        apply count_walk in E3 as (l & W & Ln & _); [|intros; exact (ro_inext (Sequenced V jn jp) L x)|intros; unfold s_node_ok; ro]. exists l. auto.
    - unfold r_invariant in E. apply ro_bind_inv in E as (n & E1 & E); [|ro]. assert (n = cget L (snd s)) as -> by (destruct s; inversion E1; reflexivity).
      apply ro_bind_inv in E as (cap & _ & E); [|ro]. destruct (cap <? cget L (snd s)); [discriminate|].
      apply ro_bind_inv in E as (b & E2 & E); [|unfold r_begin; ro]. exists b.
      destruct ((cget L (snd s) =? 0) || (b =? hd)).
      + inversion E as [[E' Es]]; subst s'. destruct (Z _ _ E') as (Z1 & Z2). exists []. cbn. auto.
      + unfold bind at 1 in E. destruct (count_all _ _ _ _ _ _) as [r s1|s1|] eqn:E3 in E; try discriminate. destruct r as [k|]; [|discriminate].
        unfold bind in E. destruct (r_node_ok L hd s1) as [e s2|s2|]; try discriminate. inversion E as [[E4 E5]]. apply andb_prop in E4 as (_ & E4).
        apply Nat.eqb_eq in E4. subst k.
        apply count_walk in E3 as (l & W & Ln & _); [|intros; exact (ro_inext (RandomAccess V ju) L x)|intros; unfold r_node_ok; ro]. exists l. auto.
    - unfold h_invariant in E. apply ro_bind_inv in E as (n & E1 & E); [|ro]. assert (n = cget L (snd s)) as -> by (destruct s; inversion E1; reflexivity).
      apply ro_bind_inv in E as (b & E2 & E); [|exact (ro_begin (Hashed key eq hash uniq jh n0 pol) L)]. exists b.
      destruct ((cget L (snd s) =? 0) || (b =? hd)).
      + inversion E as [[E' Es]]; subst s'. destruct (Z _ _ E') as (Z1 & Z2). exists []. cbn. auto.
      + unfold bind at 1 in E. destruct (count_all _ _ _ _ _ _) as [r s1|s1|] eqn:E3 in E; try discriminate. destruct r as [k|]; [|discriminate].
        destruct (is_count (Some k) (cget L (snd s))) eqn:E4; [|discriminate]. apply Nat.eqb_eq in E4. subst k.
        apply count_walk in E3 as (l & W & Ln & _); [|intros; exact (ro_inext (Hashed key eq hash uniq jh n0 pol) L x)|intros; ro]. exists l. auto. }
  destruct X as (b & l & B & W & Ln). exists l. splits; auto.
  - unfold enum. erewrite rb by reflexivity. now rewrite (rb _ _ B).
  - eapply walk_nd; [|exact W]. intros x. apply ro_inext.
Qed.
Lemma walk_steps S (next : node -> M S node) last s (Hn : forall x, RO (next x)) : forall f x l, walk next last f x s = Ret l s ->
  x = List.hd last l /\ forall l1 y l2, l = l1 ++ y :: l2 -> next y s = Ret (List.hd last l2) s.
Proof.
  induction f as [|f IH]; intros x l E; cbn [walk] in E; destruct (Nat.eqb_spec x last) as [->|X]; try discriminate.
  - inversion E; subst. split; auto. intros [|? l1] y l2; discriminate.
  - inversion E; subst. split; auto. intros [|? l1] y l2; discriminate.
  - apply ro_bind_inv in E as (w & E1 & E); [|apply Hn]. unfold bind in E. destruct (walk next last f w s) as [r s1|s1|] eqn:E3; try discriminate.
    inversion E; subst. destruct (IH _ _ E3) as (Q1 & Q2). split; auto. intros [|z l1] y l2 Eq; inversion Eq; subst; [exact E1|]. eapply Q2; eauto.
Qed.
(** of a sequenced index, invariant_() is true exactly if size() different nodes form a ring with the header, linked in both
    directions, but for the prior() of the first element, which may be any node linked to it *)
Theorem C59_sequenced (L : Layer V) t s : s_invariant hd L (t, s) = Ret true (t, s) <->
  exists l, length l = cget L s /\ NoDup (hd :: l) /\ (forall l1 x l2, hd :: l = l1 ++ x :: l2 -> nx t x = Some (List.hd hd l2)) /\
    (forall l1 x l2, l = l1 ++ x :: l2 -> pr t (List.hd hd l2) = Some x) /\
    match l with [] => pr t hd = Some hd | x :: _ => exists p, pr t x = Some p /\ nx t p = Some x end.
Proof.
  assert (OwN : forall x y u, @ownM sst (St L) node (get_next x) u = Ret y u <-> nx (fst u) x = Some y).
  { intros x y (a, b). unfold ownM, lensM, get_next. cbn. destruct (nx a x) as [z|]; split; intros E; inversion E; auto. }
  assert (OwP : forall x y u, @ownM sst (St L) node (get_prior x) u = Ret y u <-> pr (fst u) x = Some y).
  { intros x y (a, b). unfold ownM, lensM, get_prior. cbn. destruct (pr a x) as [z|]; split; intros E; inversion E; auto. }
  assert (Rn : forall x, RO (@ownM sst (St L) node (get_next x))) by (intros; ro).
  assert (Rp : forall x, RO (@ownM sst (St L) node (get_prior x))) by (intros; ro).
  split.
  - intros E. unfold s_invariant, s_begin in E. rewrite (rb _ _ (ssize_ok L s t)) in E. apply ro_bind_inv in E as (b & B & E); auto. apply OwN in B. cbn [fst] in B.
    destruct ((cget L s =? 0) || (b =? hd)) eqn:E0.
    + apply ro_bind_inv in E as (x & X & E); auto. apply ro_bind_inv in E as (y & Y & E); auto. apply OwP in Y. cbn [fst] in Y. inversion E as [E'].
      repeat (apply andb_prop in E' as (E' & ?)). rewrite Nat.eqb_eq in *. subst. exists []. splits; auto.
      * constructor; [easy|constructor].
      * intros [|? [|? ?]] z l2 Eq; inversion Eq; subst. exact B.
      * intros [|? ?] z l2 Eq; discriminate.
    + unfold bind at 1 in E. destruct (count_all _ _ _ _ _ _) as [r s1|s1|] eqn:E3 in E; try discriminate. inversion E as [[E4 E5]]. destruct r as [k|]; [|discriminate].
      apply Nat.eqb_eq in E4. subst k. apply count_walk in E3 as (l & W & Ln & Ck); [|intros; unfold SeqModel.increment; auto|intros; unfold s_node_ok; ro].
      assert (Nd : NoDup (hd :: l)) by (eapply walk_nd; [|exact W]; intros; unfold SeqModel.increment; auto).
      apply walk_steps in W as (W1 & W2); [|intros; unfold SeqModel.increment; auto]. exists l.
      assert (Nx : forall l1 x l2, l = l1 ++ x :: l2 -> nx t x = Some (List.hd hd l2)).
      { intros l1 x l2 Eq. assert (Q := W2 _ _ _ Eq). unfold SeqModel.increment in Q. apply OwN in Q. exact Q. }
      assert (Pr : forall x, In x l -> (exists n, nx t x = Some n /\ pr t n = Some x) /\ exists p, pr t x = Some p /\ nx t p = Some x).
      { intros x I. assert (Q := Ck x I). unfold s_node_ok in Q. apply ro_bind_inv in Q as (n & Q1 & Q); auto. apply ro_bind_inv in Q as (y & Q2 & Q); auto.
        apply OwN in Q1. apply OwP in Q2. destruct (Nat.eqb_spec y x) as [->|]; [|discriminate]. cbn [negb] in Q.
        apply ro_bind_inv in Q as (p & Q3 & Q); auto. apply ro_bind_inv in Q as (z & Q4 & Q); auto. apply OwP in Q3. apply OwN in Q4. inversion Q as [Q5]. apply Nat.eqb_eq in Q5. subst z.
        cbn [fst] in *. eauto 6. }
      splits; auto.
      * intros [|y l1] x l2 Eq; inversion Eq; subst; [exact B|eapply Nx; eauto].
      * intros l1 x l2 Eq. assert (I : In x l) by (rewrite Eq, in_app_iff; cbn; auto). destruct (Pr x I) as ((n & N1 & N2) & _).
        rewrite (Nx _ _ _ Eq) in N1. injection N1 as ->. exact N2.
      * destruct l as [|x l]; [|apply (Pr x); now left]. exfalso. rewrite <- Ln in E0. discriminate.
  - intros (l & Ln & Nd & Fw & Bw & Ft). unfold s_invariant, s_begin. rewrite (rb _ _ (ssize_ok L s t)).
    rewrite (rb _ _ (proj2 (OwN hd (List.hd hd l) (t, s)) (Fw [] hd l eq_refl))).
    destruct l as [|x l].
    + cbn [List.hd]. rewrite Nat.eqb_refl, Bool.orb_true_r. rewrite (rb _ _ (proj2 (OwN hd hd (t, s)) (Fw [] hd [] eq_refl))), (rb _ _ (proj2 (OwP hd hd (t, s)) Ft)).
      rewrite <- Ln. cbn. now rewrite Nat.eqb_refl.
    + assert (X1 : (cget L s =? 0) = false) by (rewrite <- Ln; reflexivity).
      assert (X2 : (x =? hd) = false). { apply Nat.eqb_neq. intros ->. inversion Nd as [|? ? N1 _]; subst. apply N1. now left. }
      rewrite X1. cbn [List.hd]. rewrite X2. cbn [orb].
      erewrite rb; [|apply (@count_all_ok _ _ _ _ _ (x :: l)); [lia| | |]].
      * cbn [is_count]. now rewrite Ln, Nat.eqb_refl.
      * eapply NoDup_perm; [|exact Nd]. apply Permutation_cons_append.
      * intros l1 y l2 E1. apply OwN. apply (Fw (hd :: l1)). now rewrite E1.
      * intros y I. apply in_split in I as (l1 & l2 & E1). unfold s_node_ok.
        rewrite (rb _ _ (proj2 (OwN y (List.hd hd l2) (t, s)) (Fw (hd :: l1) y l2 (f_equal (cons hd) E1)))).
        rewrite (rb _ _ (proj2 (OwP (List.hd hd l2) y (t, s)) (Bw _ _ _ E1))), Nat.eqb_refl. cbn [negb].
        assert (Q : exists p, pr t y = Some p /\ nx t p = Some y).
        { destruct l1 as [|z l1 _] using rev_ind; [inversion E1; subst; exact Ft|]. rewrite <- app_assoc in E1. exists z. split.
          - exact (Bw _ _ _ E1).
          - exact (Fw (hd :: l1) z (y :: l2) (f_equal (cons hd) E1)). }
        destruct Q as (p & P1 & P2). rewrite (rb _ _ (proj2 (OwP y p (t, s)) P1)), (rb _ _ (proj2 (OwN p y (t, s)) P2)). now rewrite Nat.eqb_refl.
Qed.
(** of a random access index, exactly if the array has place for size() elements, and size() different nodes up to the header are met
    in slots, from the first slot on, each being in the slot it points to and the next one being in the slot after that *)
Definition in_slot (t : rst) (x : node) (p : nat) : Prop := rup t x = Some p /\ slot t p = Some x.
Theorem C59_random_access (L : Layer V) t s : r_invariant hd L (t, s) = Ret true (t, s) <->
  cget L s <= rcap t /\ exists l, length l = cget L s /\ NoDup (hd :: l) /\ slot t (rbs t) = Some (List.hd hd l) /\
    (forall l1 x l2, l = l1 ++ x :: l2 -> exists p, in_slot t x p /\ slot t (p + 1) = Some (List.hd hd l2)) /\
    (l <> [] -> exists p, in_slot t hd p).
Proof.
  assert (OwU : forall x y u, @ownM rst (St L) nat (get_up x) u = Ret y u <-> rup (fst u) x = Some y).
  { intros x y (a, b). unfold ownM, lensM, get_up. cbn. destruct (rup a x) as [z|]; split; intros E; inversion E; auto. }
  assert (OwS : forall x y u, @ownM rst (St L) node (RndModel.rd x) u = Ret y u <-> slot (fst u) x = Some y).
  { intros x y (a, b). unfold ownM, lensM, RndModel.rd. cbn. destruct (slot a x) as [z|]; split; intros E; inversion E; auto. }
  assert (Ru : forall x, RO (@ownM rst (St L) nat (get_up x))) by (intros; ro).
  assert (Rs : forall x, RO (@ownM rst (St L) node (RndModel.rd x))) by (intros; ro).
  assert (Ok : forall x, r_node_ok L x (t, s) = Ret true (t, s) <-> exists p, in_slot t x p).
  { intros x. unfold r_node_ok. split.
    - intros Q. apply ro_bind_inv in Q as (q & Q1 & Q); auto. apply ro_bind_inv in Q as (y & Q2 & Q); auto. apply OwU in Q1. apply OwS in Q2. inversion Q as [Q3].
      apply Nat.eqb_eq in Q3. subst. exists q. split; auto.
    - intros (q & Q1 & Q2). rewrite (rb _ _ (proj2 (OwU x q (t, s)) Q1)), (rb _ _ (proj2 (OwS q x (t, s)) Q2)). now rewrite Nat.eqb_refl. }
  assert (Inc : forall x y, @ownM rst (St L) node (RndModel.increment x) (t, s) = Ret y (t, s) <-> exists p, rup t x = Some p /\ slot t (p + 1) = Some y).
  { intros x y. unfold ownM, lensM, RndModel.increment, bind, get_up, RndModel.rd. cbn. destruct (rup t x) as [q|]; cbn.
    - destruct (slot t (q + 1)) as [z|] eqn:E1; split; intros E.
      + inversion E; subst. eauto.
      + destruct E as (p & E2 & E3). inversion E2; subst. rewrite E1 in E3. now inversion E3.
      + discriminate.
      + destruct E as (p & E2 & E3). inversion E2; subst. congruence.
    - split; [discriminate|]. intros (p & E & _). discriminate. }
  assert (Rb : forall y, @ownM rst (St L) node r_begin (t, s) = Ret y (t, s) <-> slot t (rbs t) = Some y).
  { intros y. unfold ownM, lensM, r_begin, a_begin, bind, RndModel.rd. cbn. destruct (slot t (rbs t)) as [z|]; split; intros E; inversion E; auto. }
  assert (Ri : forall x, RO (@ownM rst (St L) node (RndModel.increment x))) by (intros; unfold RndModel.increment; ro).
  unfold r_invariant. rewrite (rb _ _ (ssize_ok L s t)). erewrite rb by reflexivity. cbn [fst].
  split.
  - intros E. destruct (Nat.ltb_spec (rcap t) (cget L s)) as [|Cp]; [discriminate|]. split; auto.
    apply ro_bind_inv in E as (b & B & E); [|unfold r_begin; ro]. apply Rb in B.
    destruct ((cget L s =? 0) || (b =? hd)) eqn:E0.
    + inversion E as [E']. apply andb_prop in E' as (E1 & E2). apply Nat.eqb_eq in E1, E2. subst. exists []. splits; auto.
      * constructor; [easy|constructor].
      * intros [|? ?] z l2 Eq; discriminate.
      * easy.
    + unfold bind at 1 in E. destruct (count_all _ _ _ _ _ _) as [r s1|s1|] eqn:E3 in E; try discriminate. destruct r as [k|]; [|discriminate].
      assert (RO (r_node_ok L hd)) as Rh by (unfold r_node_ok; ro).
      apply ro_bind_inv in E as (e & Eh & E); auto. inversion E as [[E4 E5]]. subst s1. apply andb_prop in E4 as (-> & E4). apply Nat.eqb_eq in E4. subst k.
      apply count_walk in E3 as (l & W & Ln & Ck); [|auto|intros; unfold r_node_ok; ro].
      assert (Nd : NoDup (hd :: l)) by (eapply walk_nd; [|exact W]; auto).
      apply walk_steps in W as (W1 & W2); auto. exists l. splits; auto.
      * now rewrite B, W1.
      * intros l1 x l2 Eq. assert (I : In x l) by (rewrite Eq, in_app_iff; cbn; auto). apply Ck, Ok in I as (p & P1 & P2).
        exists p. split; [split; auto|]. apply W2, Inc in Eq as (p' & P3 & P4). congruence.
      * intros _. now apply Ok.
  - intros (Cp & l & Ln & Nd & Bg & Nx & Hd). destruct (Nat.ltb_spec (rcap t) (cget L s)) as [|_]; [lia|].
    rewrite (rb _ _ (proj2 (Rb _) Bg)). destruct l as [|x l].
    + cbn [List.hd]. rewrite Nat.eqb_refl, <- Ln. reflexivity.
    + assert (X1 : (cget L s =? 0) = false) by (rewrite <- Ln; reflexivity).
      assert (X2 : (x =? hd) = false). { apply Nat.eqb_neq. intros ->. inversion Nd as [|? ? N1 _]; subst. apply N1. now left. }
      rewrite X1. cbn [List.hd]. rewrite X2. cbn [orb].
      erewrite rb; [|apply (@count_all_ok _ _ _ _ _ (x :: l)); [lia| | |]].
      * cbv match. rewrite (rb _ _ (proj2 (Ok hd) (Hd ltac:(discriminate)))). cbn [andb is_count]. now rewrite Ln, Nat.eqb_refl.
      * eapply NoDup_perm; [|exact Nd]. apply Permutation_cons_append.
      * intros l1 y l2 E1. apply Inc. destruct (Nx _ _ _ E1) as (p & (P1 & _) & P2). eauto.
      * intros y I. apply Ok. apply in_split in I as (l1 & l2 & E1). destruct (Nx _ _ _ E1) as (p & P & _). eauto.
Qed.
Section Keys.
Variable L : Layer V.
Hypothesis gs_ : forall s, bset L (bget L s) s = s.
Variable K : Type.
Variable key : V -> K.
Variable lt : K -> K -> bool.
Variable hash : K -> nat.
Variables uniq rk : bool.
Definition holds (s : St L) (x : node) (v : V) : Prop := look (mem (bget L s)) x = Some (Some v).

Lemma ro_bas x : RO (basM L (value x)).
Proof.
  intros s v s' E. unfold basM, lensM, value in E. destruct (look (mem (bget L s)) x) as [[w|]|]; try discriminate.
  inversion E. apply gs_.
Qed.
Lemma ro_val T x : RO (@supM T (St L) V (basM L (value x))).
Proof. apply ro_sup, ro_bas. Qed.
Lemma val_inv T x v (t : T) s : @supM T (St L) V (basM L (value x)) (t, s) = Ret v (t, s) -> holds s x v.
Proof.
  unfold supM, basM, lensM, value, holds. cbn. destruct (look (mem (bget L s)) x) as [[w|]|]; try discriminate. intros E. now inversion E.
Qed.
Lemma own_inv T S A (m : M T A) t (s : S) a t' s' : @ownM T S A m (t, s) = Ret a (t', s') -> m t = Ret a t' /\ s' = s.
Proof. unfold ownM, lensM. cbn. destruct (m t); try discriminate. intros E. now inversion E. Qed.
Lemma rd_inv A (f : cell -> A) x h a h' : OrdModel.rd f x h = Ret a h' -> exists c, h x = Some c /\ a = f c.
Proof. unfold OrdModel.rd. destruct (h x) as [c|]; try discriminate. intros E. inversion E. eauto. Qed.

(** the black nodes on the way from a node to the root; the last node reached by going down always to the left, or to the right;
    the number of nodes below, as kept in a node *)
Inductive blacks (h : OrdModel.heap) (root : node) : node -> nat -> Prop :=
| bl_root c : h root = Some c -> blacks h root root (blk (cc c))
| bl_up x c n : x <> root -> h x = Some c -> blacks h root (cp c) n -> blacks h root x (blk (cc c) + n).
Inductive down (f : cell -> node) (h : OrdModel.heap) : node -> node -> Prop :=
| dn_end x c : h x = Some c -> f c = null -> down f h x x
| dn_step x c y : h x = Some c -> f c <> null -> down f h (f c) y -> down f h x y.
Definition kept (h : OrdModel.heap) (x : node) (n : nat) : Prop := x = null /\ n = 0 \/ x <> null /\ exists c, h x = Some c /\ OrdModel.cs c = n.
Definition not_red (h : OrdModel.heap) (x : node) : Prop := x = null \/ exists c, h x = Some c /\ cc c = Black.
Record checked (h : OrdModel.heap) (s : St L) (root : node) (len : nat) (x : node) (c : cell) (v : V) : Prop := mkChecked {
  ck_cell : h x = Some c;
  ck_value : holds s x v;
  ck_red : cc c = Red -> not_red h (cl c) /\ not_red h (cr c);
  ck_left : cl c <> null -> exists w, holds s (cl c) w /\ lt (key v) (key w) = false;
  ck_right : cr c <> null -> exists w, holds s (cr c) w /\ lt (key w) (key v) = false;
  ck_leaf : cl c = null -> cr c = null -> blacks h root x len;
  ck_size : rk = true -> exists i j, kept h (cl c) i /\ kept h (cr c) j /\ OrdModel.cs c = i + j + 1 }.

Lemma black_loop_inv root h : forall f x sum n h', black_loop f x root sum h = Ret n h' -> h' = h /\ exists m, n = sum + m /\ blacks h root x m.
Proof.
  induction f as [|f IH]; intros x sum n h' E; [discriminate|]. cbn [black_loop] in E.
  apply ro_bind_inv in E as (c0 & E1 & E); [|apply ro_ord]. apply rd_inv in E1 as (c & Hc & ->).
  destruct (Nat.eqb_spec x root) as [->|N].
  - inversion E; subst. split; auto. exists (blk (cc c)). split; [destruct (cc c); cbn; lia|now constructor].
  - apply ro_bind_inv in E as (p & E1 & E); [|apply ro_ord]. apply rd_inv in E1 as (c' & Hc' & ->). assert (c' = c) by congruence. subst c'.
    apply IH in E as (-> & m & -> & B). split; auto. exists (blk (cc c) + m). split; [destruct (cc c); cbn; lia|]. econstructor; eauto.
Qed.
Lemma black_count_inv root h f x n h' : black_count f x root h = Ret n h' -> h' = h /\ (x <> null -> blacks h root x n).
Proof.
  unfold black_count. destruct (Nat.eqb_spec x null) as [->|N]; intros E; [now inversion E|].
  apply black_loop_inv in E as (-> & m & -> & B). auto.
Qed.
Lemma ro_loop f x root sum : RO (black_loop f x root sum).
Proof. intros h n h' E. now apply black_loop_inv in E. Qed.
Lemma ro_black f x root : RO (black_count f x root).
Proof. intros h n h' E. now apply black_count_inv in E. Qed.
Lemma min_inv h : forall f x y h', minimum f x h = Ret y h' -> h' = h /\ down cl h x y.
Proof.
  induction f as [|f IH]; intros x y h' E; [discriminate|]. cbn [minimum] in E. apply ro_bind_inv in E as (l & E1 & E); [|apply ro_ord]. apply rd_inv in E1 as (c & Hc & ->).
  destruct (Nat.eqb_spec (cl c) null) as [N|N].
  - inversion E; subst. split; auto. econstructor; eauto.
  - apply IH in E as (-> & D). split; auto. eapply dn_step; eauto.
Qed.
Lemma max_inv h : forall f x y h', maximum f x h = Ret y h' -> h' = h /\ down cr h x y.
Proof.
  induction f as [|f IH]; intros x y h' E; [discriminate|]. cbn [maximum] in E. apply ro_bind_inv in E as (l & E1 & E); [|apply ro_ord]. apply rd_inv in E1 as (c & Hc & ->).
  destruct (Nat.eqb_spec (cr c) null) as [N|N].
  - inversion E; subst. split; auto. econstructor; eauto.
  - apply IH in E as (-> & D). split; auto. eapply dn_step; eauto.
Qed.
Lemma ro_max f x : RO (maximum f x).
Proof. intros h n h' E. now apply max_inv in E. Qed.
Lemma ro_red x : RO (nonnull_red x).
Proof. unfold nonnull_red, gc. ro. Qed.
Lemma red_inv x h h' : nonnull_red x h = Ret false h' -> not_red h x.
Proof.
  unfold nonnull_red. destruct (Nat.eqb_spec x null) as [->|N]; [now left|]. intros E. apply ro_bind_inv in E as (c0 & E1 & E); [|apply ro_ord].
  apply rd_inv in E1 as (c & Hc & ->). right. exists c. split; auto. inversion E as [E']. now destruct (cc c).
Qed.
Lemma ro_nsize x : RO (node_size x).
Proof. unfold node_size, OrdModel.gs. ro. Qed.
Lemma nsize_inv x n h h' : node_size x h = Ret n h' -> kept h x n.
Proof.
  unfold node_size. destruct (Nat.eqb_spec x null) as [->|N]; intros E; [inversion E; now left|]. right. split; auto. apply rd_inv in E as (c & Hc & ->). eauto.
Qed.
Ltac step E x X := apply ro_bind_inv in E as (x & X & E); [|first [apply ro_own; first [apply ro_ord|apply ro_red|apply ro_nsize]
  | unfold oval; apply ro_val
  | apply ro_if; [apply ro_ret|apply ro_bind; [apply ro_val|intros; apply ro_ret]]
  | apply ro_if; [apply ro_bind; [unfold OrdIdx.tree; apply ro_bind; [ro|intros; apply ro_own, ro_black]|intros; apply ro_ret]|apply ro_ret]]].
Lemma ro_onode len root x : RO (@o_node_ok V K key lt rk L len root x).
Proof.
  unfold o_node_ok, oval, OrdIdx.tree. repeat first [apply ro_bas | apply ro_loop | progress ro].
Qed.
Lemma onode_inv len root x h s : @o_node_ok V K key lt rk L len root x (h, s) = Ret true (h, s) -> x <> null -> exists c v, checked h s root len x c v.
Proof.
  intros E Nx. unfold o_node_ok, gc, gl, gr, OrdModel.gs in E.
  step E c1 X1. apply own_inv in X1 as (X1 & _). apply rd_inv in X1 as (c & Hc & ->).
  step E c2 X2. apply own_inv in X2 as (X2 & _). apply rd_inv in X2 as (c' & Hc2 & ->). assert (c' = c) by congruence. subst c'.
  step E c3 X3. apply own_inv in X3 as (X3 & _). apply rd_inv in X3 as (c' & Hc3 & ->). assert (c' = c) by congruence. subst c'.
  step E r1 R1. apply own_inv in R1 as (R1 & _). step E r2 R2. apply own_inv in R2 as (R2 & _).
  destruct (is_red (cc c) && (r1 || r2)) eqn:Er; [discriminate|].
  step E v Hv. apply val_inv in Hv. step E a Ha. destruct a; [discriminate|]. step E b Hb. destruct b; [discriminate|]. step E d Hd. destruct d; [discriminate|].
  exists c, v. split; auto.
  - intros Ec. rewrite Ec in Er. cbn in Er. apply Bool.orb_false_elim in Er as (-> & ->). split; eapply red_inv; eauto.
  - intros N. rewrite (proj2 (Nat.eqb_neq _ _) N) in Ha. step Ha w Hw. apply val_inv in Hw. inversion Ha. eauto.
  - intros N. rewrite (proj2 (Nat.eqb_neq _ _) N) in Hb. step Hb w Hw. apply val_inv in Hw. inversion Hb. eauto.
  - intros N1 N2. rewrite N1, N2 in Hd. cbn in Hd. apply ro_bind_inv in Hd as (n & Hn & Hd); [|unfold OrdIdx.tree; apply ro_bind; [ro|intros; apply ro_own, ro_black]].
    unfold OrdIdx.tree in Hn. apply ro_bind_inv in Hn as (m & _ & Hn); [|ro]. apply own_inv in Hn as (Hn & _). apply black_count_inv in Hn as (_ & Hn).
    inversion Hd as [Hq]. apply Bool.negb_false_iff, Nat.eqb_eq in Hq. subst. auto.
  - intros Rk. rewrite Rk in E. step E n Hn. apply own_inv in Hn as (Hn & _). apply rd_inv in Hn as (c' & Hc4 & ->). assert (c' = c) by congruence. subst c'.
    step E i Hi. apply own_inv in Hi as (Hi & _). apply nsize_inv in Hi. step E j Hj. apply own_inv in Hj as (Hj & _). apply nsize_inv in Hj.
    inversion E as [Eq]. apply Nat.eqb_eq in Eq. eauto 6.
Qed.

(** of an ordered index which is not empty: each element met by iteration is as it should be in relation to its children and, a
    leaf, to the root; and begin() and the last element are the ends of the tree *)
Theorem C59_ordered junk h s s' : @o_invariant V hd K key lt rk L (h, s) = Ret true s' -> cget L s <> 0 ->
  exists l ch len, enum (Ordered key lt uniq rk junk) L (h, s) = Ret l (h, s) /\ length l = cget L s /\ NoDup (hd :: l) /\
    h hd = Some ch /\ down cl h (cp ch) (cl ch) /\ down cr h (cp ch) (cr ch) /\ (cl ch <> null -> blacks h (cp ch) (cl ch) len) /\
    forall x, In x l -> x <> null -> exists c v, checked h s (cp ch) len x c v.
Proof.
  intros E Nz. destruct (@C59_counts (Ordered key lt uniq rk junk) L (h, s) s' E) as (l & En & Ln & Nd). cbn in Ln.
  unfold o_invariant in E. rewrite (rb _ _ (ssize_ok L s h)) in E.
  apply ro_bind_inv in E as (b & B & E); [|unfold o_begin, gl; ro].
  destruct ((cget L s =? 0) || (b =? hd)) eqn:E0.
  { apply ro_bind_inv in E as (x1 & _ & E); [|unfold gl; ro]. apply ro_bind_inv in E as (x2 & _ & E); [|unfold gr; ro]. inversion E as [E'].
    destruct (Nat.eqb_spec (cget L s) 0) as [|_]; [easy|]. cbn in E'. discriminate. }
  assert (Rx : forall x, RO (o_next L x)) by (intros x; exact (ro_inext (Ordered key lt uniq rk junk) L x)).
  apply ro_bind_inv in E as (r & _ & E); [|apply ro_count; [exact Rx|intros; apply ro_ret]]. destruct (is_count r (cget L s)); [|discriminate]. cbn [negb] in E.
  step E lm X1. apply own_inv in X1 as (X1 & _). apply rd_inv in X1 as (ch & Hc & ->).
  step E rt X1. apply own_inv in X1 as (X1 & _). apply rd_inv in X1 as (c' & Hc2 & ->). assert (c' = ch) by congruence. subst c'.
  apply ro_bind_inv in E as (len & Hl & E); [|unfold OrdIdx.tree; apply ro_bind; [ro|intros; apply ro_own, ro_black]].
  unfold OrdIdx.tree in Hl. apply ro_bind_inv in Hl as (m & _ & Hl); [|ro]. apply own_inv in Hl as (Hl & _). apply black_count_inv in Hl as (_ & Hl).
  apply ro_bind_inv in E as (r2 & E4 & E); [|apply ro_count; [exact Rx|intros; apply ro_onode]]. destruct (is_count r2 (cget L s)) eqn:E5; [|discriminate]. cbn [negb] in E.
  destruct r2 as [k2|]; [|discriminate].
  apply count_walk in E4 as (l' & W & _ & Ck); [|exact Rx|intros; apply ro_onode].
  assert (l' = l) as ->.
  { unfold View.enum in En. erewrite rb in En by reflexivity. cbn [i_begin View.i_begin] in En. rewrite (rb _ _ B) in En. eapply walk_fun; [exact Rx|exact W|exact En]. }
  apply ro_bind_inv in E as (mn & E6 & E); [|unfold OrdIdx.tree; apply ro_bind; [ro|intros; apply ro_own, ro_minimum]].
  unfold OrdIdx.tree in E6. apply ro_bind_inv in E6 as (m6 & _ & E6); [|ro]. apply own_inv in E6 as (E6 & _). apply min_inv in E6 as (_ & D1).
  destruct (Nat.eqb_spec (cl ch) mn) as [<-|]; [|discriminate]. cbn [negb] in E.
  step E rm X1. apply own_inv in X1 as (X1 & _). apply rd_inv in X1 as (c' & Hc3 & ->). assert (c' = ch) by congruence. subst c'.
  apply ro_bind_inv in E as (mx & E7 & E); [|unfold OrdIdx.tree; apply ro_bind; [ro|intros; apply ro_own, ro_max]].
  unfold OrdIdx.tree in E7. apply ro_bind_inv in E7 as (m7 & _ & E7); [|ro]. apply own_inv in E7 as (E7 & _). apply max_inv in E7 as (_ & D2).
  inversion E as [E8]. apply Nat.eqb_eq in E8. subst mx.
  exists l, ch, len. splits; auto. intros x I Nx. apply onode_inv; auto.
Qed.
(** ** hashed indices *)
(** iterating from begin(i) to end(i) *)
Definition local (i : nat) : HashIdx.OM L (list node) :=
  x <- HashIdx.begin_local L i ;; n <- supM (size L) ;; walk (HashIdx.next_local uniq L) null n x.
Lemma ro_blocal i : RO (HashIdx.begin_local L i).
Proof.
  unfold HashIdx.begin_local, HashIdx.at_, HashIdx.get, HashModel.pri. apply ro_bind; [|intros; ro].
  apply ro_own. intros u a u' E. now inversion E.
Qed.
Lemma ro_nlocal x : RO (HashIdx.next_local uniq L x).
Proof.
  unfold HashIdx.next_local, HashIdx.after_local, HashModel.u_after_local, HashModel.n_after_local, HashModel.n_after_or, HashModel.u_last_of_bucket, HashModel.nxt, HashModel.pri. ro.
Qed.
Lemma ro_bloop : forall f x res, RO (HashIdx.bucket_loop uniq L f x res).
Proof. induction f as [|f IH]; intros x res; cbn [HashIdx.bucket_loop]; [apply ro_ub|]. apply ro_if; [apply ro_ret|]. apply ro_bind; [exact (ro_nlocal x)|auto]. Qed.
Lemma ro_bsize i : RO (HashIdx.bucket_size uniq L i).
Proof.
  unfold HashIdx.bucket_size, HashIdx.at_, HashIdx.get, HashIdx.bound, HashModel.pri. apply ro_bind; [apply ro_own; intros u a u' E; now inversion E|]. intros b.
  apply ro_bind; [ro|]. intros x. apply ro_bind; [ro|]. intros f. apply ro_bloop.
Qed.
Lemma ro_bcount : RO (HashIdx.bucket_count L).
Proof. apply ro_own. intros u a u' E. now inversion E. Qed.
Lemma ro_hnode i x : RO (@h_node_ok V K key hash L i x).
Proof. unfold h_node_ok, HashIdx.oval. apply ro_bind; [apply ro_val|]. intros v. apply ro_bind; [apply ro_bcount|intros; apply ro_ret]. Qed.
Record bucket_ok (t : HashIdx.hst) (s : St L) (i : nat) (l : list node) : Prop := mkBucketOk {
  bk_local : local i (t, s) = Ret l (t, s);
  bk_size : HashIdx.bucket_size uniq L i (t, s) = Ret (length l) (t, s);
  bk_nd : NoDup l;
  bk_in : forall x, In x l -> exists v, holds s x v /\ HashModel.position (hash (key v)) (HashIdx.bc t) = i }.
Lemma buckets_inv t s : forall k buc s1 n s', @h_buckets V K key hash uniq L k buc s1 (t, s) = Ret (Some n) s' ->
  exists bs, length bs = k /\ n = s1 + length (concat bs) /\ forall i l, nth_error bs i = Some l -> bucket_ok t s (buc + i) l.
Proof.
  induction k as [|k IH]; intros buc s1 n s' E; cbn [h_buckets] in E.
  - inversion E; subst. exists []. splits; auto. intros [|i] l Q; discriminate.
  - apply ro_bind_inv in E as (x & E1 & E); [|apply ro_blocal]. rewrite (rb _ _ (ssize_ok L s t)) in E.
    apply ro_bind_inv in E as (r & E2 & E); [|apply ro_count; [apply ro_nlocal|intros; apply ro_hnode]]. destruct r as [m|]; [|discriminate].
    apply count_walk in E2 as (l & W & Ln & Ck); [|apply ro_nlocal|intros; apply ro_hnode].
    apply ro_bind_inv in E as (z & E3 & E); [|apply ro_bsize]. destruct (Nat.eqb_spec m z) as [<-|]; [|discriminate].
    apply IH in E as (bs & B1 & B2 & B3). exists (l :: bs). cbn [length concat]. rewrite app_length. splits; [congruence|lia|].
    intros [|i] l' Q; cbn in Q.
    + inversion Q; subst l'. rewrite Nat.add_0_r. split.
      * unfold local. rewrite (rb _ _ E1), (rb _ _ (ssize_ok L s t)). exact W.
      * now rewrite Ln.
      * assert (N : NoDup (null :: l)) by (eapply walk_nd; [exact ro_nlocal|exact W]). now inversion N.
      * intros y I. apply Ck in I. unfold h_node_ok, HashIdx.oval in I. apply ro_bind_inv in I as (v & I1 & I); [|apply ro_val]. apply val_inv in I1.
        apply ro_bind_inv in I as (c & I2 & I); [|apply ro_bcount]. inversion I2; subst. inversion I as [I3]. apply Nat.eqb_eq in I3. eauto.
    + replace (buc + S i) with (S buc + i) by lia. auto.
Qed.
(** of a hashed index which is not empty: the buckets have size() different elements altogether, each in the bucket of its
    hash value *)
Theorem C59_hashed t s s' : @h_invariant V hd K key hash uniq L (t, s) = Ret true s' -> cget L s <> 0 ->
  exists bs, length bs = HashIdx.bc t /\ length (concat bs) = cget L s /\ NoDup (concat bs) /\ forall i l, nth_error bs i = Some l -> bucket_ok t s i l.
Proof.
  intros E Nz. unfold h_invariant in E. rewrite (rb _ _ (ssize_ok L s t)) in E.
  apply ro_bind_inv in E as (b & B & E); [|exact (ro_begin (Hashed key (fun _ _ => true) hash uniq jh0 0 pol1) L)].
  destruct ((cget L s =? 0) || (b =? hd)) eqn:E0.
  { inversion E as [E']. destruct (Nat.eqb_spec (cget L s) 0) as [|_]; [easy|]. cbn in E'. discriminate. }
  apply ro_bind_inv in E as (r & _ & E); [|apply ro_count; [exact (ro_inext (Hashed key (fun _ _ => true) hash uniq jh0 0 pol1) L)|intros; apply ro_ret]].
  destruct (is_count r (cget L s)); [|discriminate]. cbn [negb] in E.
  apply ro_bind_inv in E as (m & E1 & E); [|apply ro_bcount]. inversion E1; subst m. clear E1.
  unfold bind in E. destruct (h_buckets _ _ _ _ _ _ _) as [q s1|s1|] eqn:Eq in E; try discriminate. inversion E as [[E2 E3]]. destruct q as [q|]; [|discriminate]. apply Nat.eqb_eq in E2. subst.
  apply buckets_inv in Eq as (bs & B1 & B2 & B3). cbn in B2, B3. exists bs. splits; auto.
  assert (Dj : forall i j l l' x, nth_error bs i = Some l -> nth_error bs j = Some l' -> In x l -> In x l' -> i = j).
  { intros i j l l' x H1 H2 I1 I2. destruct (bk_in (B3 _ _ H1) _ I1) as (v & V1 & <-). destruct (bk_in (B3 _ _ H2) _ I2) as (v' & V2 & <-).
    unfold holds in *. rewrite V1 in V2. now inversion V2. }
  assert (Nb : forall i l, nth_error bs i = Some l -> NoDup l) by (intros i l H; exact (bk_nd (B3 _ _ H))).
  clear - Dj Nb. induction bs as [|l bs IH]; [constructor|]. cbn [concat]. apply NoDup_app_iff. splits.
  - exact (Nb 0 l eq_refl).
  - apply IH.
    + intros i j l1 l2 x H1 H2 I1 I2. assert (X := Dj (S i) (S j) l1 l2 x H1 H2 I1 I2). now inversion X.
    + intros i l1 H. exact (Nb (S i) l1 H).
  - intros x I J. apply in_concat in J as (l' & J1 & J2). apply In_nth_error in J1 as (j & J1). assert (X := Dj 0 (S j) l l' x eq_refl J1 I J2). discriminate.
Qed.
(** an empty ordered index: begin() and the last element are end() *)
Theorem C59_ordered_empty h s s' : @o_invariant V hd K key lt rk L (h, s) = Ret true s' -> cget L s = 0 ->
  exists ch, h hd = Some ch /\ cl ch = hd /\ cr ch = hd.
Proof.
  intros E Z. unfold o_invariant in E. rewrite (rb _ _ (ssize_ok L s h)), Z in E.
  apply ro_bind_inv in E as (b & _ & E); [|unfold o_begin, gl; ro]. cbn [Nat.eqb orb] in E. unfold gl, gr in E.
  step E l X1. apply own_inv in X1 as (X1 & _). apply rd_inv in X1 as (ch & Hc & ->).
  step E r X2. apply own_inv in X2 as (X2 & _). apply rd_inv in X2 as (c' & Hc2 & ->). assert (c' = ch) by congruence. subst c'.
  inversion E as [E']. apply andb_prop in E' as (E' & E2). apply andb_prop in E' as (_ & E1). apply Nat.eqb_eq in E1, E2. eauto.
Qed.
Lemma ro_oinv (junk : cell) : RO (@o_invariant V hd K key lt rk L).
Proof.
  assert (Rx : forall x, RO (o_next L x)) by (intros x; exact (ro_inext (Ordered key lt uniq rk junk) L x)).
  unfold o_invariant, o_begin, gl, gr, gp, OrdIdx.tree.
  repeat first [apply ro_black | apply ro_loop | apply ro_minimum | apply ro_max | (apply ro_count; [exact Rx|intros; first [apply ro_ret|apply ro_onode]]) | progress ro].
Qed.
Lemma ro_buckets : forall k b n, RO (@h_buckets V K key hash uniq L k b n).
Proof.
  induction k as [|k IH]; intros b n; cbn [h_buckets]; [apply ro_ret|]. apply ro_bind; [apply ro_blocal|]. intros x. apply ro_bind; [ro|]. intros m.
  apply ro_bind; [apply ro_count; [apply ro_nlocal|intros; apply ro_hnode]|]. intros [j|]; [|apply ro_ret].
  apply ro_bind; [apply ro_bsize|]. intros z. apply ro_if; [auto|apply ro_ret].
Qed.
Lemma ro_hinv : RO (@h_invariant V hd K key hash uniq L).
Proof.
  unfold h_invariant. apply ro_bind; [ro|]. intros n. apply ro_bind; [exact (ro_begin (Hashed key (fun _ _ => true) hash uniq jh0 0 pol1) L)|]. intros b.
  apply ro_if; [ro|]. apply ro_bind; [apply ro_count; [exact (ro_inext (Hashed key (fun _ _ => true) hash uniq jh0 0 pol1) L)|intros; apply ro_ret]|]. intros r.
  apply ro_if; [ro|]. apply ro_bind; [apply ro_bcount|]. intros m. apply ro_bind; [apply ro_buckets|intros; apply ro_ret].
Qed.
End Keys.

(** ** the container *)
Lemma ro_iinv c (L : Layer V) (gs_ : forall s, bset L (bget L s) s = s) : RO (i_invariant throws pick hd c L).
Proof.
  destruct c; cbn [i_invariant].
  - exact (ro_oinv gs_ key lt uniq rk junk).
  - unfold s_invariant, s_begin, s_node_ok, SeqModel.increment. repeat first [(apply ro_count; intros) | progress ro].
  - unfold r_invariant, r_begin, r_node_ok, RndModel.increment.
    repeat first [(apply ro_count; intros) | progress ro | match goal with |- RO (match ?r with Some _ => _ | None => _ end) => destruct r end].
  - exact (ro_hinv gs_ key hash uniq).
Qed.
(** the part of the state which belongs to the indices below *)
Definition super (c : code V) (L : Layer V) : St (layer_of c L) -> St L :=
  match c return St (layer_of c L) -> St L with
  | Ordered _ _ _ _ _ => snd | Sequenced _ _ _ => snd | RandomAccess _ _ => snd | Hashed _ _ _ _ _ _ _ => snd
  end.
Notation stack := (stack throws pick hd (mem_world V)).
(** [P] of each index, with its part of the state *)
Fixpoint each (P : forall c L, St (layer_of c L) -> Prop) (cs : list (code V)) : St (stack cs) -> Prop :=
  match cs return St (stack cs) -> Prop with
  | [] => fun _ => True
  | c :: cs => fun s => P c (stack cs) s /\ each P cs (super c (stack cs) s)
  end.
Lemma lift_inv A c (L : Layer V) (m : M (St L) A) s a : RO m -> (lift throws pick hd c L m s = Ret a s <-> m (super c L s) = Ret a (super c L s)).
Proof.
  intros R. destruct c, s as (t, s); cbn; unfold supM, lensM; cbn; (destruct (m s) as [a' s1|s1|] eqn:E; [assert (s1 = s) as -> by exact (R _ _ _ E)| |]);
    (split; intros H; try discriminate; inversion H; reflexivity).
Qed.
Lemma ro_lift A c (L : Layer V) (m : M (St L) A) : RO m -> RO (lift throws pick hd c L m).
Proof. intros R. destruct c; cbn; now apply ro_sup. Qed.
Lemma stack_gs : forall cs s, bset (stack cs) (bget (stack cs) s) s = s.
Proof.
  induction cs as [|c cs IH]; [intros (n, s); reflexivity|]. destruct c; intros (t, s); change ((t, bset (stack cs) (bget (stack cs) s) s) = (t, s)); now rewrite IH.
Qed.
(** invariant_() of the container is true exactly if it is true of each of its indices *)
Theorem C59_each cs s s' :
  invariant throws pick hd (mem_world V) cs s = Ret true s' <-> s' = s /\ each (fun c L s => i_invariant throws pick hd c L s = Ret true s) cs s.
Proof.
  assert (gs_ := stack_gs). assert (R : forall cs, RO (invariant throws pick hd (mem_world V) cs)).
  { clear cs s s'. induction cs as [|c cs IH]; cbn [invariant]; [apply ro_ret|]. apply ro_bind; [apply ro_iinv; auto|]. intros b.
    apply ro_if; [apply ro_lift, IH|apply ro_ret]. }
  revert s s'. induction cs as [|c cs IH]; intros s s'.
  - cbn. split; [intros H; now inversion H|intros (-> & _); reflexivity].
  - split.
    + intros E. assert (s' = s) as -> by exact (R _ _ _ _ E). split; auto. cbn [invariant each] in *.
      apply ro_bind_inv in E as (b & E1 & E); [|apply ro_iinv; auto]. destruct b; [|discriminate]. split; auto.
      apply lift_inv in E; auto. apply IH in E. apply E.
    + intros (-> & E1 & E2). cbn [invariant]. rewrite (rb _ _ E1). apply lift_inv; auto. apply IH. auto.
Qed.
End Detect.

(** ** instances *)
Definition verdict {S} (o : out S bool) : option bool := match o with Ret b _ => Some b | _ => None end.
Example some_invariant : setting next_node 1 four /\ reachable at23 next_node 1 four some_state [5; 4; 3; 2] [] /\
  verdict (invariant at23 next_node 1 (mem_world nat) four some_state) = Some true.
Proof. split; [exact four_ok|]. split; [exact some_reach|]. vm_compute. reflexivity. Qed.
Example hash_invariant : setting next_node 1 three /\ reachable at60 next_node 1 three hash_state [6; 5; 4; 3; 2] [] /\
  verdict (invariant at60 next_node 1 (mem_world nat) three hash_state) = Some true.
Proof. split; [exact three_ok|]. split; [exact hash_reach|]. vm_compute. reflexivity. Qed.
(** a program with three containers *)
Example many_invariant : let q := ManyProps.many_end ManyProps.never in
  reachw pol1 (fst q) (fst (snd q)) (snd (snd q)) /\
  map (fun x => verdict (invariant ManyProps.never next_node (oh x) (mem_world nat) (oc x) (os x))) (objs (fst q)) = [Some true; Some true; Some true].
Proof. split; [apply ManyProps.many_reach; auto|vm_compute; reflexivity]. Qed.

(** damaged states: the value of a node overwritten, another size *)
Definition overwrite {V} (L : Layer V) (x : node) (v : V) (s : St L) : St L := bset L (mkB ((x, Some v) :: mem (bget L s)) (tk (bget L s))) s.
Definition never (_ : nat) : bool := false.
Definition judge (cs : list (code nat)) (s : St (box never next_node 1 cs)) : option bool := verdict (invariant never next_node 1 (mem_world nat) cs s).
Definition ins (cs : list (code nat)) (l : list nat) : St (box never next_node 1 cs) :=
  fold_left (fun s v => match c_insert (box never next_node 1 cs) v None s with Ret _ s' => s' | _ => s end) l (start never next_node 1 cs 0).
Definition ids : list (code nat) := [by_id true].
(** nodes 2, 3, 4, 5 with the values 5, 3, 7, 4: 5 at the root, 3 and 7 its children, 4 the right child of 3 *)
Definition tree4 : St (box never next_node 1 ids) := ins ids [5; 3; 7; 4].
Example ids_damaged : judge ids tree4 = Some true /\ judge ids (overwrite (box never next_node 1 ids) 3 9 tree4) = Some false /\
  judge ids (overwrite (box never next_node 1 ids) 5 2 tree4) = Some false /\ judge ids (cset (box never next_node 1 ids) 3 tree4) = Some false /\
  judge ids (cset (box never next_node 1 ids) 5 tree4) = Some false.
Proof. vm_compute. auto. Qed.
(** not every damage is detected: nodes are only compared with their children, and equivalent elements of a unique index are
    not looked for.  Here the elements are, in the order of the index, 3, 6, 5, 7 and 3, 3, 5, 7 *)
Example ids_undetected : let s := overwrite (box never next_node 1 ids) 5 6 tree4 in let s' := overwrite (box never next_node 1 ids) 5 3 tree4 in
  judge ids s = Some true /\ judge ids s' = Some true /\
  option_map (map (map (value_of never next_node 0 1 ids s))) (sequences never next_node 1 ids s) = Some [[3; 6; 5; 7]] /\
  option_map (map (map (value_of never next_node 0 1 ids s'))) (sequences never next_node 1 ids s') = Some [[3; 3; 5; 7]].
Proof. vm_compute. auto. Qed.
(** a sequenced index of the nodes 2, 3, 4: the prior() of 3 overwritten; that of the first element overwritten with a node
    outside of the index, whose next() is this element *)
Definition seqs : list (code nat) := [Sequenced nat 0 0].
Definition set_pr (x y : node) (t : sst) : sst := mkS (nx t) (upd (pr t) x (Some y)) (SeqModel.tk t) (fil t).
Definition set_nx (x y : node) (t : sst) : sst := mkS (upd (nx t) x (Some y)) (pr t) (SeqModel.tk t) (fil t).
Example seqs_damaged : let s := ins seqs [8; 8; 9] in judge seqs s = Some true /\ judge seqs (set_pr 3 4 (fst s), snd s) = Some false /\
  judge seqs (set_nx 4 2 (fst s), snd s) = Some false /\ judge seqs (set_nx 9 2 (set_pr 2 9 (fst s)), snd s) = Some true.
Proof. vm_compute. auto. Qed.

(** the hypotheses of [C59_ordered] and [C59_hashed] *)
Lemma below_gs (cs : list (code nat)) : Forall (@code_ok nat) cs -> forall s, let L := stack never next_node 1 (mem_world nat) cs in bset L (bget L s) s = s.
Proof.
  intros F. exact (o_gs (@stack_ok nat never next_node 0 1 (mem_world nat) unit (fun _ _ => True) (fun _ _ => False) (fun _ a => a) next_node_ok (mem_world_ok nat) cs F)).
Qed.
Definition got {S A} (o : out S (list A)) : list A := match o with Ret l _ => l | _ => [] end.
Lemma verdict_true S (o : out S bool) : verdict o = Some true -> exists s, o = Ret true s.
Proof. destruct o as [b s|s|]; cbn; try discriminate. intros E. inversion E. eauto. Qed.
Example ids_checked : exists l ch len, l = [3; 5; 2; 4] /\ fst tree4 1 = Some ch /\ cl ch = 3 /\ cr ch = 4 /\
  forall x, In x l -> exists c v, checked (stack never next_node 1 (mem_world nat) []) (fun v => v) Nat.ltb false (fst tree4) (snd tree4) 2 len x c v.
Proof.
  destruct (verdict_true (@o_invariant nat 1 nat (fun v => v) Nat.ltb false (stack never next_node 1 (mem_world nat) []) (fst tree4, snd tree4))) as (s' & E); [vm_compute; reflexivity|].
  destruct (@C59_ordered nat never next_node 1 _ (below_gs (Forall_nil _)) nat (fun v => v) Nat.ltb true false junk0 _ _ _ E) as (l & ch & len & A & B & _ & C & _ & _ & _ & D).
  - vm_compute. discriminate.
  - exists l, ch, len. apply (f_equal got) in A. cbn [got] in A.
    assert (Q : l = [3; 5; 2; 4]) by (rewrite <- A; vm_compute; reflexivity).
    assert (R : option_map (fun c => (cl c, cr c, cp c)) (Some ch) = Some (3, 4, 2)) by (rewrite <- C; vm_compute; reflexivity).
    cbn in R. assert (R1 : cl ch = 3) by congruence. assert (R2 : cr ch = 4) by congruence. assert (R3 : cp ch = 2) by congruence. splits; auto.
    intros x I. rewrite R3 in D. apply D; auto. intros ->. rewrite Q in I. cbn in I. intuition discriminate.
Qed.
Definition hashes : list (code nat) := [hash_id false].
Definition hash4 : St (box never next_node 1 hashes) := ins hashes [5; 5; 58; 7].
Example hashes_checked : exists bs, length bs = 53 /\ NoDup (concat bs) /\ length (concat bs) = 4 /\ nth_error bs 5 = Some [4; 3; 2] /\ nth_error bs 7 = Some [5].
Proof.
  destruct (verdict_true (@h_invariant nat 1 nat (fun v => v) (fun k => k) false (stack never next_node 1 (mem_world nat) []) (fst hash4, snd hash4))) as (s' & E); [vm_compute; reflexivity|].
  destruct (@C59_hashed nat never next_node 1 _ (below_gs (Forall_nil _)) nat (fun v => v) (fun k => k) false _ _ _ E) as (bs & A & B & C & D).
  - vm_compute. discriminate.
  - exists bs. assert (Ln : length bs = 53) by (rewrite A; vm_compute; reflexivity). splits; auto.
    + destruct (nth_error bs 5) as [l|] eqn:E1; [|apply nth_error_None in E1; lia]. assert (X := bk_local (D _ _ E1)). apply (f_equal got) in X. cbn [got] in X. refine (eq_trans E1 (f_equal Some (eq_trans (eq_sym X) _))). vm_compute. reflexivity.
    + destruct (nth_error bs 7) as [l|] eqn:E1; [|apply nth_error_None in E1; lia]. assert (X := bk_local (D _ _ E1)). apply (f_equal got) in X. cbn [got] in X. refine (eq_trans E1 (f_equal Some (eq_trans (eq_sym X) _))). vm_compute. reflexivity.
Qed.

Example ids_empty : exists ch, fst (ins ids []) 1 = Some ch /\ cl ch = 1 /\ cr ch = 1.
Proof.
  destruct (verdict_true (@o_invariant nat 1 nat (fun v => v) Nat.ltb false (stack never next_node 1 (mem_world nat) []) (fst (ins ids []), snd (ins ids [])))) as (s' & E); [vm_compute; reflexivity|].
  apply (@C59_ordered_empty nat 1 _ nat (fun v => v) Nat.ltb false _ _ _ E). reflexivity.
Qed.
(** the second of two indices is damaged, the first is not *)
Definition pair2 : list (code nat) := [Sequenced nat 0 0; by_id true].
Definition pair3 : St (box never next_node 1 pair2) := ins pair2 [5; 3; 7].
Example pair_damaged : let s := overwrite (box never next_node 1 pair2) 3 9 pair3 in
  judge pair2 pair3 = Some true /\ judge pair2 s = Some false /\
  verdict (i_invariant never next_node 1 (Sequenced nat 0 0) (box never next_node 1 ids) s) = Some true.
Proof. vm_compute. auto. Qed.

Print Assumptions C59_invariant.
Print Assumptions C59_invariants.
Print Assumptions C59_counts.
Print Assumptions C59_sequenced.
Print Assumptions C59_random_access.
Print Assumptions C59_ordered.
Print Assumptions C59_hashed.
Print Assumptions C59_ordered_empty.
Print Assumptions C59_each.
