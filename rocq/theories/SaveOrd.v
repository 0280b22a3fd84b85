(** C44 for ordered indices with equivalent keys.
    Sources: /repo/include/boost/multi_index/detail/duplicates_iterator.hpp,
    /repo/include/boost/multi_index/detail/ord_index_impl.hpp, 1477-1520 *)
From Verif Require Import Prelude OrdModel OrdTree OrdHeap OrdRot OrdLink OrdExt3 OrdTrav Layer LayerBase OrdIdx OrdSpec OrdLook OrdPoint OrdLayer Match Save SaveList.
Local Notation size := OrdTree.size.
Set Implicit Arguments.

(** ** Model *)
Section Model.
Variables V K : Type.
Variable throws : nat -> bool.
Variable key : V -> K.
Variable lt : K -> K -> bool.
Variable hd : node.
Variable L : Layer V.
Notation OM := (OM L).
(** pred(x->value(),y->value()), where pred is value_comp(): value_compare.hpp:25-41 *)
Definition pred (x y : node) : OM bool := v <- oval L x ;; w <- oval L y ;; cmp throws lt L (key v) (key w).
(** advance, duplicates_iterator.hpp:75-82; the result is node, begin_chunk is the same *)
Fixpoint advance (fuel : nat) (node : node) : OM Prelude.node :=
  match fuel with
  | O => ub
  | S f =>
    if node =? hd then ret node
    else
      node2 <- o_next L node ;;
      if node2 =? hd then advance f node2
      else b <- pred node node2 ;; if negb b then ret node else advance f node2
  end.
(** the iterator at the beginning, 36-40: node and begin_chunk *)
Definition d_begin : OM (node * node) :=
  x <- o_begin hd L ;; f <- bound L ;; y <- advance f x ;; ret (y, y).
(** operator++, 57-62, and sync, 70-73 *)
Definition d_next (it : node * node) : OM (node * node) :=
  x <- o_next L (fst it) ;;
  if x =? hd then ret (x, snd it)
  else
    b <- pred (snd it) x ;;
    if b : bool then f <- bound L ;; y <- advance f x ;; ret (y, y) else ret (x, snd it).
(** the nodes passed over until the end is reached *)
Fixpoint d_all (fuel : nat) (it : node * node) : OM (list node) :=
  if fst it =? hd then ret []
  else
    match fuel with
    | O => ub
    | S f => it' <- d_next it ;; l <- d_all f it' ;; ret (fst it :: l)
    end.
(** the range which is saved, ord_index_impl.hpp:1477-1489 *)
Definition duplicates : OM (list node) := f <- bound L ;; it <- d_begin ;; d_all f it.
End Model.
Arguments pred {V K} (throws key lt) L x y.
Arguments advance {V K} (throws key lt) hd L fuel node.
Arguments d_begin {V K} (throws key lt) hd L.
Arguments d_next {V K} (throws key lt) hd L it.
Arguments d_all {V K} (throws key lt) hd L fuel it.
Arguments duplicates {V K} (throws key lt) hd L.

Section Proofs.
Variables V K : Type.
Variable throws : nat -> bool.
Variable pick : list node -> node.
Variable dv : V.
Variable key : V -> K.
Variable lt : K -> K -> bool.
Variable rk : bool.
Variable hd : node.
Variable L : Layer V.
Variable S : Spec V.
Variable rep : St L -> AV S -> Prop.
Variable shell : St L -> Prop.
Hypothesis O : OK throws pick dv hd L S rep shell.
Hypothesis W : swo lt.
Notation OM := (OM L).
Notation advance := (advance throws key lt hd L).

Section State.
Variable h : heap.
Variable s : St L.
Notation b := (bget L s).
Notation Ro := (@Ro V throws L h s).
Definition lower (v : node -> V) (x y : node) : bool := lt (key (v x)) (key (v y)).
Lemma lower_swo v : swo (lower v).
Proof. destruct W as [A B C]. constructor; unfold lower; eauto. Qed.
Notation below := (lower (val dv b)).
Notation W' := (lower_swo (val dv b)).

Variable t : OrdTree.tree.
Variable hs : nat.
Hypothesis TA : tat hd hs h t [].
Hypothesis LV : forall x, In x (inorder t) -> live b x.
Hypothesis SZ : size t <= cget L s.
Notation l := (inorder t).
Hypothesis So : in_order below l.

Lemma Ro_pred {B} x y (k : bool -> OM B) P' : live b x -> live b y -> Ro (k (below x y)) P' -> Ro (bind (pred throws key lt L x y) k) P'.
Proof.
  intros Lx Ly H. eapply Ro_bind with (P := eq (below x y)); [|now intros ? <-]. eapply Ro_val; eauto. eapply Ro_val; eauto.
  unfold cmp. eapply Ro_ucall1; eauto.
Qed.
Lemma not_hd l1 x l2 : l = l1 ++ x :: l2 -> x <> hd.
Proof. intros E ->. apply (hd_notin TA). rewrite E, in_app_iff. cbn. auto. Qed.
Lemma live_at l1 x l2 : l = l1 ++ x :: l2 -> live b x.
Proof. intros E. apply LV. rewrite E, in_app_iff. cbn. auto. Qed.
(** a class of equivalent elements ends between the two *)
Definition border (l1 l2 : list node) : Prop := forall x y, In x l1 -> In y l2 -> below x y = true.

Lemma advance_ok l2 : forall fuel l1, l = l1 ++ l2 -> border l1 l2 -> length l2 < fuel ->
  Ro (advance fuel (List.hd hd l2)) (fun r => exists d l3, l2 = d ++ l3 /\ r = List.hd hd l3 /\
    (forall x, In x d -> shared below l x = false) /\ border (l1 ++ d) l3 /\
    forall x l4, l3 = x :: l4 -> shared below l x = true).
Proof.
  assert (N := nd_l TA).
  induction l2 as [|x l2 IH]; intros fuel l1 E B Fu; (destruct fuel as [|f]; [cbn in Fu; lia|]); cbn [SaveOrd.advance List.hd].
  - rewrite Nat.eqb_refl. apply Ro_ret. exists [], []. splits; easy.
  - destruct (Nat.eqb_spec x hd) as [->|_]; [now apply not_hd in E|].
    eapply Ro_bind; [eapply next_ok; eauto|]. intros ? ->.
    assert (Nx : ~ In x (l1 ++ l2)). { rewrite E in N. now apply NoDup_remove_2 in N. }
    assert (Sp : (forall y, In y l2 -> below x y = true) -> shared below l x = false /\ border (l1 ++ [x]) l2).
    { intros H. split.
      - apply not_true_iff_false. intros Sh. apply shared_in in Sh as (y & I & Ne & Sm). apply same_iff in Sm as (A1 & A2).
        rewrite E, in_app_iff in I. destruct I as [I|[I|I]]; [|congruence|].
        + rewrite (B y x I) in A2; [discriminate|now left].
        + rewrite (H y I) in A1. discriminate.
      - intros u v I J. rewrite in_app_iff in I. destruct I as [I|[<-|[]]]; [apply B; [auto|now right]|auto]. }
    assert (Tl : forall y l2', l2 = y :: l2' -> below x y = true -> forall z, In z l2 -> below x z = true).
    { intros y l2' -> H z [<-|I]; auto. eapply (below_le_trans W'); [exact H|]. apply (bef_ss So). rewrite E.
      exists (l1 ++ [x]), l2'. rewrite <- app_assoc. auto. }
    assert (Go : (forall z, In z l2 -> below x z = true) ->
      Ro (advance f (List.hd hd l2)) (fun r => exists d l3, x :: l2 = d ++ l3 /\ r = List.hd hd l3 /\
        (forall x, In x d -> shared below l x = false) /\ border (l1 ++ d) l3 /\
        forall x l4, l3 = x :: l4 -> shared below l x = true)).
    { intros H. destruct (Sp H) as (S1 & S2). eapply Ro_conseq.
      - apply (IH f (l1 ++ [x])); auto; [now rewrite <- app_assoc|cbn in Fu; lia].
      - cbn. intros r (d & l3 & E1 & E2 & E3 & E4 & E5). exists (x :: d), l3. splits; auto.
        + cbn. now rewrite E1.
        + intros y [<-|I]; auto.
        + rewrite <- app_assoc in E4. exact E4. }
    destruct l2 as [|y l2]; cbn [List.hd] in *.
    + rewrite Nat.eqb_refl. apply Go. easy.
    + assert (E' : l = (l1 ++ [x]) ++ y :: l2) by (now rewrite <- app_assoc).
      destruct (Nat.eqb_spec y hd) as [->|_]; [now apply not_hd in E'|].
      apply Ro_pred; [eapply live_at; eauto..|]. destruct (below x y) eqn:Lt; cbn [negb].
      * apply Go. now apply (Tl y l2).
      * apply Ro_ret. exists [], (x :: y :: l2). splits; try easy; [now rewrite app_nil_r|].
        intros z l4 [= <- <-]. apply shared_in. exists y. splits.
        -- rewrite E. rewrite in_app_iff. cbn. auto.
        -- intros ->. apply Nx. rewrite in_app_iff. cbn. auto.
        -- apply same_iff. split; auto. apply (bef_ss So). rewrite E. exists l1, (y :: l2). cbn. auto.
Qed.

Lemma d_all_ok n : forall l1 l2 fuel c, length l2 <= n -> l = l1 ++ l2 -> length l2 <= fuel ->
  (forall x l3, l2 = x :: l3 -> shared below l x = true /\ same below c x = true /\ live b c) ->
  Ro (d_all throws key lt hd L fuel (List.hd hd l2, c)) (fun r => r = filter (shared below l) l2).
Proof.
  assert (N := nd_l TA).
  induction n as [|n IH]; intros l1 l2 fuel c Ln E Fu H; destruct l2 as [|x l2]; try (cbn in Ln; lia);
    try (destruct fuel; cbn; rewrite Nat.eqb_refl; now apply Ro_ret).
  destruct fuel as [|f]; [cbn in Fu; lia|]. cbn [d_all List.hd fst].
  destruct (Nat.eqb_spec x hd) as [->|_]; [now apply not_hd in E|].
  destruct (H x l2 eq_refl) as (Sx & Sc & Lc). cbn [filter]. rewrite Sx.
  assert (Nx : ~ In x (l1 ++ l2)). { rewrite E in N. now apply NoDup_remove_2 in N. }
  assert (E' : l = (l1 ++ [x]) ++ l2) by (now rewrite <- app_assoc).
  eapply Ro_bind with (P := fun it => exists d l3, l2 = d ++ l3 /\ fst it = List.hd hd l3 /\
    (forall x, In x d -> shared below l x = false) /\
    forall y l4, l3 = y :: l4 -> shared below l y = true /\ same below (snd it) y = true /\ live b (snd it)).
  - unfold d_next. cbn [fst snd]. eapply Ro_bind; [eapply next_ok; eauto|]. intros ? ->.
    destruct l2 as [|y l2]; cbn [List.hd].
    + rewrite Nat.eqb_refl. apply Ro_ret. exists [], []. splits; auto; easy.
    + destruct (Nat.eqb_spec y hd) as [->|_]; [now apply not_hd in E'|].
      assert (Ly : live b y) by (eapply live_at; eauto).
      apply Ro_pred; auto. apply same_iff in Sc as (C1 & C2). destruct (below c y) eqn:Cy.
      * eapply Ro_bound; eauto. eapply Ro_bind.
        -- apply (@advance_ok (y :: l2) (cget L s + 4) (l1 ++ [x])); auto.
           ++ intros u v I J.
              assert (Lx : below x y = true) by (eapply (le_below_trans W'); [exact C1|exact Cy]).
              assert (Lv : below x v = true).
              { destruct J as [<-|J]; auto. eapply (below_le_trans W'); [exact Lx|]. apply (bef_ss So). rewrite E'. exists (l1 ++ [x]), l2. auto. }
              rewrite in_app_iff in I. destruct I as [I|[<-|[]]]; auto.
              eapply (le_below_trans W'); [|exact Lv]. apply (bef_ss So). rewrite E. apply bef_app; cbn; auto.
           ++ assert (SZ' := SZ). rewrite size_inorder, E', app_length in SZ'. lia.
        -- cbn. intros r (d & l3 & E1 & -> & E3 & _ & E5). apply Ro_ret. exists d, l3. cbn. splits; auto.
           intros z l4 ->. cbn. splits; eauto.
           ++ apply same_iff. split; apply (w_irr W').
           ++ apply LV. rewrite E', E1, !in_app_iff. cbn. auto.
      * apply Ro_ret. exists [], (y :: l2). cbn. splits; auto; [easy|]. intros z l4 [= <- <-].
        assert (Sxy : same below x y = true).
        { apply same_iff. split.
          - destruct (below x y) eqn:B; auto. assert (T := le_below_trans W' _ _ _ C2 B). congruence.
          - apply (bef_ss So). rewrite E. exists l1, (y :: l2). cbn. auto. }
        splits; auto.
        -- apply shared_in. exists x. splits.
           ++ rewrite E, in_app_iff. cbn. auto.
           ++ intros ->. apply Nx. rewrite in_app_iff. cbn. auto.
           ++ apply same_iff. apply same_iff in Sxy. tauto.
        -- apply same_iff. split; auto. apply same_iff in Sxy. eapply (le_trans W'); [exact C2|]. tauto.
  - intros (a, c') (d & l3 & -> & Ea & Hd & Hn). cbn [fst snd] in *. subst a.
    eapply Ro_bind.
    + apply (IH ((l1 ++ [x]) ++ d) l3 f c'); auto.
      * cbn in Ln. rewrite app_length in Ln. lia.
      * now rewrite <- (app_assoc _ d).
      * cbn in Fu. rewrite app_length in Fu. lia.
    + cbn. intros r ->. apply Ro_ret. f_equal. rewrite filter_app.
      rewrite (@OrdLook.filter_none _ _ d); [reflexivity|]. apply Forall_forall. auto.
Qed.
(** the elements with others of an equivalent key, in the order they have in the index *)
Theorem duplicates_ok : Ro (duplicates throws key lt hd L) (fun r => r = duplicated below l).
Proof.
  unfold duplicates, d_begin. eapply Ro_bound; eauto.
  assert (SZ' := SZ). rewrite size_inorder in SZ'.
  eapply Ro_bind with (P := fun it => exists d l3, l = d ++ l3 /\ fst it = List.hd hd l3 /\
    (forall x, In x d -> shared below l x = false) /\
    forall y l4, l3 = y :: l4 -> shared below l y = true /\ same below (snd it) y = true /\ live b (snd it)).
  - eapply Ro_bind; [eapply begin_ok; eauto|]. intros ? ->. eapply Ro_bound; eauto. eapply Ro_bind.
    + apply (@advance_ok l (cget L s + 4) []); auto; [easy|lia].
    + cbn. intros r (d & l3 & E1 & -> & E3 & _ & E5). apply Ro_ret. exists d, l3. cbn. splits; auto.
      intros z l4 ->. cbn. splits; eauto.
      * apply same_iff. split; apply (w_irr W').
      * apply LV. rewrite E1, !in_app_iff. cbn. auto.
  - intros (a, c) (d & l3 & E & Ea & Hd & Hn). cbn [fst snd] in *. subst a. eapply Ro_conseq.
    + apply (@d_all_ok (length l3) d l3); auto. rewrite E, app_length in SZ'. lia.
    + cbn. intros r ->. unfold duplicated. rewrite E at 3. rewrite filter_app.
      rewrite (@OrdLook.filter_none _ _ d); [reflexivity|]. apply Forall_forall. auto.
Qed.
End State.

(** ** Moving one element *)
Section Move.
Variable s : St L.
Notation b := (bget L s).
Notation below := (lower (val dv b)).
Notation W' := (lower_swo (val dv b)).
Notation has := (@has rk hd).
Notation rearranger := (rearranger throws key lt rk hd L).

(** the last statement, ord_index_impl.hpp:1514-1519 *)
Lemma put_ok h n m x p l1 l2 : has h m -> length m = cget L s -> NoDup m -> In x m -> without x m = l1 ++ l2 ->
  (p = x /\ m = l1 ++ x :: l2 \/ p <> x /\ p = List.hd hd l2) ->
  wp (if p =? x then ret tt else unlink rk hd L x ;;; tree L (fun f => restore rk hd f x p))
    (fun _ st => exists h', st = (h', adv L n s) /\ has h' (l1 ++ x :: l2)) (fun _ => False) (h, adv L n s).
Proof.
  intros H Ln N Ix Wo [(-> & ->)|(Np & ->)].
  - rewrite Nat.eqb_refl. apply wp_ret. exists h. auto.
  - destruct (Nat.eqb_spec (List.hd hd l2) x) as [|_]; [easy|]. destruct H as (t & hs & TA & R & I).
    apply in_split in Ix as (c & d & Em). rewrite Em in N. rewrite Em, without_mid in Wo by (now apply NoDup_remove_2 in N).
    rewrite Em in I. assert (Sz : size t = cget L s) by (rewrite size_inorder, I, <- Em; auto).
    eapply wp_unlink with (1 := TA); eauto; [rewrite (adv_cget O); lia|].
    intros h' t' cx T' R' I'. rewrite Wo in I'.
    assert (Sz2 : size t' + 1 = cget L s).
    { rewrite size_inorder, I', <- Wo, <- Ln, Em, !app_length. cbn. lia. }
    unfold tree. apply wp_bind, wp_sup. unfold Layer.size, wp at 1. rewrite (adv_cget O). apply wp_own.
    eapply wp_conseq; [eapply restore_spec with (1 := T'); eauto; lia| |easy].
    intros [] h2 (t2 & T2 & I2 & R2). exists h2. split; auto. exists t2, hs. auto.
Qed.

(** at the beginning of the elements equivalent to [x] *)
Definition lowest (x : node) (l1 l2 : list node) : Prop :=
  (forall y, In y l1 -> below y x = true) /\ (forall y, In y l2 -> below y x = false).
Definition where_to (prev : option node) (x : node) (l1 l2 : list node) : Prop :=
  match prev with
  | None => lowest x l1 l2
  | Some p => below p x = true /\ lowest x l1 l2 \/ same below p x = true /\ exists l0, l1 = l0 ++ [p]
  end.
Lemma rearranger_ok h n m prev x : has h m -> (forall y, In y m -> live b y) -> length m = cget L s ->
  in_order below m -> In x m -> (forall p, prev = Some p -> In p m /\ p <> x) ->
  wp (rearranger prev x)
    (fun _ st => exists h' n' l1 l2, quiet throws n n' /\ st = (h', adv L n' s) /\ has h' (l1 ++ x :: l2) /\
       without x m = l1 ++ l2 /\ where_to prev x l1 l2)
    (fun st => exists n', st = (h, adv L n' s) /\
       (blown throws n n' \/ quiet throws n n' /\ exists p, prev = Some p /\ below x p = true))
    (h, adv L n s).
Proof.
  intros H LV Ln So Ix Hp. pose proof H as (t & hs & TA & R & I).
  assert (LV' : forall y, In y (inorder t) -> live b y) by (rewrite I; auto).
  assert (Sz : size t <= cget L s) by (rewrite size_inorder, I; lia).
  assert (N : NoDup m) by (rewrite <- I; apply (nd_l TA)).
  assert (Nh : ~ In hd m) by (rewrite <- I; apply (hd_notin TA)).
  assert (Lo : forall n1, quiet throws n n1 -> (prev = None \/ exists p, prev = Some p /\ below p x = true) ->
    wp (p <- OrdIdx.lower_bound throws key hd L (fun k' => lt k' (key (val dv b x))) ;;
        if p =? x then ret tt else unlink rk hd L x ;;; tree L (fun f => restore rk hd f x p))
    (fun _ st => exists h' n' l1 l2, quiet throws n n' /\ st = (h', adv L n' s) /\ has h' (l1 ++ x :: l2) /\
       without x m = l1 ++ l2 /\ where_to prev x l1 l2)
    (fun st => exists n', st = (h, adv L n' s) /\
       (blown throws n n' \/ quiet throws n n' /\ exists p, prev = Some p /\ below x p = true))
    (h, adv L n1 s)).
  { intros n1 Q1 Hw.
    assert (Mo : mono (fun y => negb (below y x)) m).
    { apply ss_bef. intros y z B. rewrite !negb_true_iff. intros E. apply (bef_ss So) in B. cbn in B. eapply (le_trans W'); eauto. }
    destruct (mono_split Mo) as (m1 & m2 & Em & F1 & F2). rewrite Forall_forall in F1, F2.
    assert (F1' : forall y, In y m1 -> below y x = true) by (intros y J; apply F1 in J; now apply negb_false_iff in J).
    assert (F2' : forall y, In y m2 -> below y x = false) by (intros y J; apply F2 in J; now apply negb_true_iff in J).
    assert (Ix2 : In x m2). { rewrite Em, in_app_iff in Ix. destruct Ix as [J|]; auto. apply F1' in J. rewrite (w_irr W') in J. discriminate. }
    eapply Ro_wpn.
    - eapply lower_bound_ok with (1 := O) (2 := TA); eauto. rewrite I. exact Mo.
    - intros p n2 -> Q2. rewrite I. unfold first. change (fun x0 => negb (lt (key (val dv b x0)) (key (val dv b x)))) with (fun y => negb (below y x)).
      replace (List.find (fun y => negb (below y x)) m) with (hd_error m2) by (rewrite Em, find_split by (now apply Forall_forall); reflexivity).
      destruct m2 as [|p m2]; [easy|]. cbn [hd_error].
      assert (Q : quiet throws n n2) by (eapply quiet_trans; eauto).
      assert (Hw' : forall l2, (forall y, In y l2 -> In y (p :: m2)) -> where_to prev x m1 l2).
      { intros l2 Hl. assert (Hlo : lowest x m1 l2) by (split; auto). destruct Hw as [->|(q & -> & Bq)]; cbn; auto. }
      destruct (Nat.eq_dec p x) as [->|Np].
      + assert (Wo : without x m = m1 ++ m2). { rewrite Em. apply without_mid. rewrite Em in N. now apply NoDup_remove_2 in N. }
        eapply wp_conseq; [apply (@put_ok h n2 m x x m1 m2); auto|..]; [|easy].
        intros [] st (h' & -> & H'). exists h', n2, m1, m2. splits; auto. apply Hw'. intros y J. now right.
      + destruct Ix2 as [|Ix2]; [easy|]. apply in_split in Ix2 as (c & d & ->).
        assert (Wo : without x m = m1 ++ p :: c ++ d).
        { rewrite Em. change (m1 ++ p :: c ++ x :: d) with (m1 ++ (p :: c) ++ x :: d). rewrite app_assoc, without_mid.
          - now rewrite <- app_assoc.
          - rewrite Em in N. change (m1 ++ p :: c ++ x :: d) with (m1 ++ (p :: c) ++ x :: d) in N. rewrite app_assoc in N. now apply NoDup_remove_2 in N. }
        eapply wp_conseq; [apply (@put_ok h n2 m x p m1 (p :: c ++ d)); auto|..]; [|easy].
        intros [] st (h' & -> & H'). exists h', n2, m1, (p :: c ++ d). splits; auto. apply Hw'.
        intros y. cbn. rewrite !in_app_iff. cbn. tauto.
    - intros n2 B. exists n2. split; auto. left. eapply blown_trans; eauto. }
  unfold OrdIdx.rearranger.
  assert (Lx : live b x) by auto.
  assert (Ov : forall n0 y {B} (k : V -> OM B) Q E, live b y -> wp (k (val dv b y)) Q E (h, adv L n0 s) -> wp (bind (oval L y) k) Q E (h, adv L n0 s)).
  { intros n0 y B k Q E Ly Hk. eapply wp_oval with (dv := dv); eauto; [|].
    - unfold live in *. rewrite (adv_mem O). exact Ly.
    - unfold val. rewrite (adv_mem O). exact Hk. }
  apply Ov; auto. cbv zeta. destruct prev as [p|].
  - destruct (Hp p eq_refl) as (Ip & Np). apply wp_bind. apply Ov; auto. unfold cmp.
    assert (Rc : forall k1 k2, Ro throws h s (ucall throws L (lt k1 k2)) (fun r => r = lt k1 k2)).
    { intros k1 k2. eapply Ro_ucall1; eauto. }
    assert (Wc : forall k1 k2 (Q : bool -> ost L -> Prop) (E : ost L -> Prop) n0, (forall n', quiet throws n0 n' -> Q (lt k1 k2) (h, adv L n' s)) ->
      (forall n', blown throws n0 n' -> E (h, adv L n' s)) -> wp (ucall throws L (lt k1 k2)) Q E (h, adv L n0 s)).
    { intros k1 k2 Q E n0 Hq He. eapply wp_conseq; [apply (Rc k1 k2 n0)|..]; cbn.
      - intros a st (-> & n' & q & ->). auto.
      - intros st (n' & q & ->). auto. }
    apply Wc; [|intros n' B; exists n'; auto]. intros n1 Q1. change (lt (key (val dv b p)) (key (val dv b x))) with (below p x).
    destruct (below p x) eqn:Bp.
    + apply Lo; eauto.
    + apply wp_bind. apply Ov; auto. apply wp_bind. apply Wc.
      2:{ intros n' B. exists n'. split; auto. left. eapply blown_trans; eauto. }
      intros n2 Q2. assert (Q : quiet throws n n2) by (eapply quiet_trans; eauto).
      change (lt (key (val dv b x)) (key (val dv b p))) with (below x p). destruct (below x p) eqn:Bx.
      { apply wp_throw. exists n2. split; auto. right. eauto. }
      assert (Sm : same below p x = true) by (apply same_iff; auto).
      apply in_split in Ip as (c & d & Em).
      assert (Ni : wp (tree L (fun f => increment f p)) (fun r st => r = List.hd hd d /\ st = (h, adv L n2 s)) (fun _ => False) (h, adv L n2 s)).
      { unfold tree. apply wp_bind, wp_sup. unfold Layer.size, wp at 1. rewrite (adv_cget O). apply wp_own.
        eapply wp_conseq; [eapply increment_spec with (hs := hs) (1 := TA) (l1 := c) (l2 := d); [now rewrite I|lia]| |easy].
        intros r h' (-> & ->). auto. }
      eapply wp_conseq; [exact Ni| |easy]. intros r st (-> & ->).
      assert (Hd : List.hd hd d = x \/ List.hd hd d <> x) by (destruct (Nat.eq_dec (List.hd hd d) x); auto).
      destruct Hd as [Hd|Hd].
      * destruct d as [|y d]; cbn in Hd; [congruence|]. subst y.
        assert (Wo : without x m = (c ++ [p]) ++ d).
        { rewrite Em. change (c ++ p :: x :: d) with (c ++ [p] ++ x :: d). rewrite app_assoc, without_mid; auto.
          rewrite Em in N. change (c ++ p :: x :: d) with (c ++ [p] ++ x :: d) in N. rewrite app_assoc in N. now apply NoDup_remove_2 in N. }
        eapply wp_conseq; [apply (@put_ok h n2 m x x (c ++ [p]) d); auto|..]; [left; split; auto; rewrite Em, <- app_assoc; reflexivity| |easy].
        intros [] st (h' & -> & H'). exists h', n2, (c ++ [p]), d. splits; auto. right. eauto.
      * assert (Wp : exists l0 l2, without x m = (l0 ++ [p]) ++ l2 /\ List.hd hd d = List.hd hd l2).
        { rewrite Em, in_app_iff in Ix. destruct Ix as [J|[J|J]]; [|congruence|].
          - apply in_split in J as (e & f & ->). exists (e ++ f), d. split; auto. rewrite Em, <- !app_assoc. cbn [app].
            rewrite without_mid; [now rewrite app_assoc|]. rewrite Em, <- app_assoc in N. cbn [app] in N. now apply NoDup_remove_2 in N.
          - apply in_split in J as (e & f & ->). destruct e as [|y e]; [cbn in Hd; congruence|]. exists c, (y :: e ++ f). split; [|reflexivity].
            assert (Em2 : m = (c ++ p :: y :: e) ++ x :: f) by (rewrite Em, <- app_assoc; reflexivity).
            rewrite Em2, without_mid; [rewrite <- !app_assoc; reflexivity|]. rewrite Em2 in N. now apply NoDup_remove_2 in N. }
        destruct Wp as (l0 & l2 & Wo & Eh).
        eapply wp_conseq; [apply (@put_ok h n2 m x _ (l0 ++ [p]) l2); auto|..]; [|easy].
        intros [] st (h' & -> & H'). exists h', n2, (l0 ++ [p]), l2. splits; auto. right. eauto.
  - apply Lo; auto. apply quiet_refl.
Qed.

(** ** Loading *)
Lemma in_order_mid x l1 l2 : in_order below (l1 ++ l2) -> (forall y, In y l1 -> below x y = false) -> (forall y, In y l2 -> below y x = false) ->
  in_order below (l1 ++ x :: l2).
Proof. intros A B C. apply sorted_mid. splits; auto; apply Forall_forall; auto. Qed.
Lemma where_order prev x m l1 l2 : in_order below m -> without x m = l1 ++ l2 -> where_to prev x l1 l2 -> in_order below (l1 ++ x :: l2).
Proof.
  intros So Wo H. assert (So' : in_order below (l1 ++ l2)) by (rewrite <- Wo; eapply in_order_sub; [apply filter_subseq|exact So]).
  assert (Lo : lowest x l1 l2 -> in_order below (l1 ++ x :: l2)).
  { intros (A & B). apply in_order_mid; auto. intros y I. apply (below_asym W'). auto. }
  destruct prev as [p|]; cbn in H; auto. destruct H as [(_ & H)|(Sm & l0 & ->)]; auto. apply same_iff in Sm as (S1 & S2).
  apply in_order_mid; auto.
  - intros y I. rewrite in_app_iff in I. destruct I as [I|[<-|[]]]; auto. eapply (le_trans W'); [|exact S2].
    apply (bef_ss So'). apply bef_sub with (l := l0 ++ [p]); [apply subseq_app_l, subseq_refl|]. apply bef_app; cbn; auto.
  - intros y I. eapply (le_trans W'); [exact S1|]. apply (bef_ss So'). apply bef_app; auto. rewrite in_app_iff. cbn. auto.
Qed.
Lemma parts_perm x m l1 l2 : NoDup m -> In x m -> without x m = l1 ++ l2 -> Permutation (l1 ++ x :: l2) m.
Proof. intros N I Wo. rewrite (@without_perm x m N I), Wo. symmetry. apply Permutation_middle. Qed.

Variable n0 : nat.
Variable All : list node.
Hypothesis NA : NoDup All.
Hypothesis LV : forall y, In y All -> live b y.
Hypothesis Sz : length All = cget L s.

(** the elements [All] in some order, when the last of the calls threw iff [ex] *)
Definition some_order (ex : bool) (m : list node) (st : ost L) : Prop :=
  exists h n, st = (h, adv L n s) /\ (if ex then blown throws n0 n else quiet throws n0 n) /\ has h m /\ Permutation m All /\ in_order below m.
Definition still (ex : bool) (st : ost L) : Prop := exists m, some_order ex m st.

Lemma rearranger_some prev x m st : some_order false m st -> In x All -> (forall p, prev = Some p -> In p All /\ p <> x) ->
  wp (rearranger prev x)
    (fun _ st' => exists l1 l2, some_order false (l1 ++ x :: l2) st' /\ without x m = l1 ++ l2 /\ where_to prev x l1 l2)
    (fun st' => some_order true m st' \/ some_order false m st' /\ exists p, prev = Some p /\ below x p = true) st.
Proof.
  intros (h & n & -> & Q & H & P & So) Ix Hp. assert (Pi : forall y, In y All <-> In y m).
  { intros y. split; apply Permutation_in; auto. now symmetry. }
  assert (N : NoDup m) by (eapply NoDup_perm; [symmetry; exact P|auto]).
  eapply wp_conseq.
  - apply (@rearranger_ok h n m prev x); auto.
    + intros y I. apply LV. now apply Pi.
    + rewrite <- Sz. now apply Permutation_length.
    + now apply Pi.
    + intros p E. rewrite <- Pi. auto.
  - cbn. intros _ st (h' & n' & l1 & l2 & Q' & -> & H' & Wo & Wh). exists l1, l2. splits; auto. exists h', n'. splits; auto.
    + eapply quiet_trans; eauto.
    + rewrite <- P. apply parts_perm; auto. now apply Pi.
    + eapply where_order; eauto.
  - cbn. intros st (n' & -> & [B|(Q' & B)]); [left|right; split; auto]; exists h, n'; splits; auto; [eapply blown_trans; eauto|eapply quiet_trans; eauto].
Qed.

(** any archive *)
Theorem o_load_any ents ar m st : incl ents All -> some_order false m st ->
  wp (load ents rearranger ar) (fun _ st' => still false st') (fun st' => still true st' \/ still false st') st.
Proof.
  intros Ie H.
  assert (Ck : forall x st' (k : M (ost L) archive), still false st' -> (In x All -> wp k (fun _ st' => still false st') (fun st' => still true st' \/ still false st') st') ->
    wp (check_node ents x ;;; k) (fun _ st' => still false st') (fun st' => still true st' \/ still false st') st').
  { intros x st' k P Hk. unfold check_node. destruct (existsb (Nat.eqb x) ents) eqn:E.
    - apply wp_bind, wp_ret. apply Hk, Ie. now apply among_in.
    - apply wp_bind, wp_throw. auto. }
  rewrite load_outer. assert (G : forall prev m st, some_order false m st -> (forall p, prev = Some p -> In p All) ->
    wp (load_loop ents rearranger prev ar) (fun _ st' => still false st') (fun st' => still true st' \/ still false st') st).
  { clear m st H. induction ar as [|[x|] ar IH]; intros prev m st H Hp; cbn [load_loop].
    - apply wp_throw. right. exists m. auto.
    - destruct prev as [p|]; (apply Ck; [exists m; auto|intros Ix]).
      + apply wp_bind. eapply wp_conseq; [apply (@rearranger_some _ x m st H Ix)|..].
        * destruct (Nat.eqb_spec x p) as [|Ne]; [discriminate|]. intros q [= <-]. split; auto.
        * cbn. intros _ st' (l1 & l2 & H' & _). eapply IH; eauto. intros q [= <-]. auto.
        * cbn. intros st' [H'|(H' & _)]; [left|right]; exists m; auto.
      + apply (IH _ m); auto. intros q [= <-]. auto.
    - destruct prev as [p|]; [apply (IH _ m); auto; discriminate|]. apply wp_ret. exists m. auto. }
  apply G with m; auto. discriminate.
Qed.

(** an archive with the order of the duplicated elements of a container, whose order is [Fin], where those for
    which [ok] holds are already in order *)
Theorem o_load_emit ents ok Fin tail m st : incl Fin ents -> in_order below Fin -> Permutation Fin All ->
  subseq (filter ok (duplicated below Fin)) m -> some_order false m st ->
  wp (load ents rearranger (emit ok (List.hd null (duplicated below Fin)) 3 (duplicated below Fin) ++ tail))
    (fun t st' => t = tail /\ some_order false Fin st') (still true) st.
Proof.
  intros Ie SF PF Sb H. set (D := shared below Fin). set (Du := duplicated below Fin) in *.
  assert (NF : NoDup Fin) by (eapply NoDup_perm; [symmetry; exact PF|auto]).
  assert (ND : NoDup Du) by (apply dup_nodup; auto).
  assert (SD : in_order below Du) by (eapply in_order_sub; [apply filter_subseq|exact SF]).
  assert (DD : forall y, In y Du -> D y = true /\ In y All).
  { intros y I. apply filter_In in I as (I & Dy). split; auto. eapply Permutation_in; eauto. }
  set (Rep := fun l st => exists m, some_order false m st /\ filter D m = l).
  assert (Pd : forall m, Permutation m All -> Permutation (filter D m) Du).
  { intros m1 P1. assert (P2 : Permutation m1 Fin) by (rewrite P1; now symmetry).
    apply NoDup_Permutation; auto.
    - apply NoDup_filter. eapply NoDup_perm; [symmetry; exact P1|auto].
    - intros y. unfold Du, duplicated. rewrite !filter_In. fold D. split; intros (I & Dy); split; auto; eapply Permutation_in; [exact P2|exact I|symmetry; exact P2|exact I]. }
  eapply wp_conseq.
  - apply load_restores with (Rep := Rep) (Ex := still true) (l := filter D m); auto.
    + intros y I. apply Ie. now apply filter_In in I.
    + intros P x Q l st1 Pl (m1 & H1 & F1).
      pose proof Pl as (Pm & EL & FL). assert (Sp := placed_sub Pl).
      assert (Ix : In x Du) by (rewrite EL, in_app_iff; cbn; auto).
      assert (Lp : forall p, last_opt P = Some p -> exists P0, P = P0 ++ [p]).
      { intros p. destruct P as [|q P0 _] using rev_ind; [discriminate|]. rewrite last_opt_snoc. intros [= <-]. eauto. }
      assert (Hp : forall p, last_opt P = Some p -> In p Du /\ p <> x /\ below x p = false).
      { intros p Ep. destruct (Lp p Ep) as (P0 & ->). rewrite <- app_assoc in EL. cbn [app] in EL.
        assert (B : bef Du p x) by (rewrite EL; exists P0, (x :: Q); cbn; auto).
        splits; [apply (bef_in B)|apply (bef_neq ND B)|apply (bef_ss SD B)]. }
      assert (N1 : NoDup m1) by (destruct H1 as (h1 & n1 & _ & _ & _ & P1 & _); eapply NoDup_perm; [symmetry; exact P1|auto]).
      assert (Ix1 : In x m1) by (destruct H1 as (h1 & n1 & _ & _ & _ & P1 & _); eapply Permutation_in; [symmetry; exact P1|now apply DD]).
      eapply wp_conseq; [apply (@rearranger_some (last_opt P) x m1 st1 H1)|..].
      * now apply DD.
      * intros p Ep. destruct (Hp p Ep) as (A1 & A2 & _). split; auto. now apply DD.
      * cbn. intros u st' (l1 & l2 & H' & Wo & Wh). exists (filter D (l1 ++ x :: l2)). split; [exists (l1 ++ x :: l2); auto|].
        assert (P' : Permutation (l1 ++ x :: l2) All) by (destruct H' as (h' & n' & _ & _ & _ & P' & _); auto).
        assert (So' : in_order below (l1 ++ x :: l2)) by (destruct H' as (h' & n' & _ & _ & _ & _ & S'); auto).
        assert (Nm : NoDup (l1 ++ x :: l2)) by (eapply NoDup_perm; [symmetry; exact P'|auto]).
        assert (Wl : without x l = filter D l1 ++ filter D l2).
        { rewrite <- F1. unfold without. rewrite filter_filter. change (filter (fun y => negb (y =? x)) m1) with (without x m1). rewrite Wo. apply filter_app. }
        destruct (DD x Ix) as (Dx & _).
        assert (Lo : lowest x l1 l2 -> (forall p, In p P -> below p x = true) -> placed Du ok (P ++ [x]) Q (filter D (l1 ++ x :: l2))).
        { intros (A & B) Hlo. apply placed_low with (below := below) (l := l); auto using lower_swo.
          - rewrite Pm. now apply Pd.
          - rewrite Wl, filter_app. cbn. rewrite Dx. rewrite without_mid; auto. rewrite in_app_iff, !filter_In.
            apply NoDup_remove_2 in Nm. rewrite in_app_iff in Nm. tauto.
          - eapply in_order_sub; [apply filter_subseq|exact So'].
          - intros y Iy Ny By. apply filter_In in Iy as (Iy & Dy). apply bef_filter; auto.
            rewrite in_app_iff in Iy. destruct Iy as [Iy|[Iy|Iy]]; [apply A in Iy; congruence|congruence|].
            exists l1, l2. auto. }
        destruct (last_opt P) as [p|] eqn:Ep; cbn in Wh.
        -- destruct (Lp p eq_refl) as (P0 & EP). destruct (Hp p eq_refl) as (Ip & Np & Bp). destruct Wh as [(Bl & Wh)|(Sm & l0 & ->)].
           ++ apply Lo; auto. intros q Iq. rewrite EP, in_app_iff in Iq. destruct Iq as [Iq|[<-|[]]]; auto.
              eapply (le_below_trans W'); [|exact Bl]. apply (bef_ss SD). rewrite EL, EP.
              apply bef_sub with (l := P0 ++ [p]); [apply subseq_app_l, subseq_refl|]. apply bef_app; cbn; auto.
           ++ destruct (DD p Ip) as (Dp & _). replace (filter D ((l0 ++ [p]) ++ x :: l2)) with (after (last_opt P) x l).
              ** apply (placed_move (S := ost L)); auto.
              ** rewrite Ep. cbn [after]. rewrite Wl, !filter_app. cbn. rewrite Dp, Dx. rewrite <- !app_assoc. cbn. apply put_after_mid.
                 rewrite filter_In. intros (J & _). rewrite <- !app_assoc in Nm. cbn in Nm. apply NoDup_remove_2 in Nm. rewrite in_app_iff in Nm. tauto.
        -- apply Lo; auto. destruct P as [|q P0 _] using rev_ind; [easy|]. rewrite last_opt_snoc in Ep. discriminate.
      * cbn. intros st' [B|(_ & p & Ep & B)]; [exists m1; auto|]. destruct (Hp p Ep) as (_ & _ & Bp). congruence.
    + apply Pd. destruct H as (h1 & n1 & _ & _ & _ & P1 & _). auto.
    + destruct H as (h1 & n1 & _ & _ & _ & P1 & _). assert (Nm : NoDup m) by (eapply NoDup_perm; [symmetry; exact P1|auto]).
      apply pairs_sub; auto.
      * now apply NoDup_filter.
      * now apply NoDup_filter.
      * intros y I. apply filter_In. split; [eapply subseq_in; eauto|]. apply filter_In in I as (I & _). now apply DD.
      * intros y z B. destruct (bef_in B) as (Iy & Iz). apply filter_In in Iy as (Iy & _), Iz as (Iz & _).
        apply bef_filter; [now apply (bef_sub Sb)|now apply DD..].
    + exists m. auto.
  - cbn. intros t st' (-> & m1 & H1 & F1). split; auto. replace Fin with m1; auto. symmetry.
    destruct H1 as (h1 & n1 & _ & _ & _ & P1 & S1). apply order_unique with (below := below); auto using lower_swo. now rewrite PF, P1.
  - auto.
Qed.
End Move.
End Proofs.
