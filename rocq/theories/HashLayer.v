(** Pieces of the operations of hashed indices: taking elements out, linking them, deletion. *)
From Verif Require Import Prelude Layer LayerBase HashModel HashIdx HashHeap HashAlg HashLink HashLay HashOps HashRead HashUndo HashSpec HashPoint HashPlace HashRehash.
Set Implicit Arguments.

(** ** Arrangements *)
Lemma resplit_self i g : shaped g -> resplit i g = [(i, g)].
Proof.
  intros H. destruct (shaped_cases H) as [(x & ->)|(f & s & m & l & ->)]; [reflexivity|apply resplit_grp].
Qed.
Lemma rem_items_notin n x I : wfi n I -> ~ In x (elems I) -> rem_items x I = I.
Proof.
  intros W N. induction I as [|(i, g) I IH]; [reflexivity|]. apply wfi_cons in W as ((_ & Sg & _) & W).
  rewrite elems_cons, in_app_iff in N. unfold rem_items. cbn [flat_map fst snd]. fold (rem_items x I).
  rewrite remove_none, resplit_self, IH; tauto || reflexivity.
Qed.
Lemma rem_items_mid n x I1 i g1 g2 I2 : wfi n (I1 ++ (i, g1 ++ x :: g2) :: I2) -> NoDup (elems (I1 ++ (i, g1 ++ x :: g2) :: I2)) ->
  rem_items x (I1 ++ (i, g1 ++ x :: g2) :: I2) = I1 ++ resplit i (g1 ++ g2) ++ I2.
Proof.
  intros W N. apply wfi_app in W as (W1 & W2). apply wfi_cons in W2 as (_ & W2).
  rewrite elems_app, elems_cons in N. rewrite <- !app_assoc in N. cbn [app] in N.
  rewrite app_assoc in N. apply NoDup_remove_2 in N. rewrite !in_app_iff in N.
  rewrite rem_app. f_equal; [eapply rem_items_notin; [exact W1|tauto]|]. unfold rem_items. cbn [flat_map fst snd]. fold (rem_items x I2).
  rewrite (@rem_items_notin n x I2) by (auto; tauto). f_equal. f_equal. rewrite remove_app'. cbn [remove].
  destruct (Nat.eq_dec x x); [|easy]. rewrite !remove_none by tauto. reflexivity.
Qed.
Lemma in_item x I : In x (elems I) -> exists I1 i g1 g2 I2, I = I1 ++ (i, g1 ++ x :: g2) :: I2.
Proof.
  intros H. apply in_elems in H as ((i, g) & Hi & H). cbn [snd] in H. apply in_split in Hi as (I1 & I2 & ->). apply in_split in H as (g1 & g2 & ->).
  eauto 6.
Qed.
Lemma resplit_wfi n i g : i < n -> ~ In null g -> wfi n (resplit i g).
Proof.
  intros Li Ng. apply Forall_forall. intros it H. rewrite (resplit_fst _ _ _ H). split; auto. split; [eapply resplit_shaped; exact H|].
  intros X. apply Ng. exact (resplit_in _ _ _ H _ X).
Qed.
Lemma rem_wfi n x I : wfi n I -> wfi n (rem_items x I).
Proof.
  intros W. induction I as [|(i, g) I IH]; [constructor|]. apply wfi_cons in W as ((Li & Sg & Ng) & W). unfold rem_items. cbn [flat_map fst snd].
  apply wfi_app. split; [|auto]. apply resplit_wfi; auto. intros X. apply in_remove in X. tauto.
Qed.
Definition single (I : list item) : Prop := Forall (fun it : item => length (snd it) = 1) I.
Lemma rem_single x I : single I -> single (rem_items x I).
Proof.
  intros W. induction W as [|(i, g) I Hg W IH]; [constructor|]. unfold rem_items. cbn [flat_map fst snd] in *. apply Forall_app. split; [|exact IH].
  destruct g as [|y [|]]; cbn in Hg; try lia. cbn [remove]. destruct (Nat.eq_dec x y); repeat constructor.
Qed.

Section Lay.
Variables (a n : nat) (hd : node) (uniq : bool).
Notation layout := (layout a n hd).

(** ** Unlinking *)
Lemma alg_unlink_lay tr h I x F : wfi n I -> (uniq = true -> single I) -> NoDup (elems I) -> In x (elems I) -> hs h (layout I ++ F) ->
  wp (alg_unlink uniq tr x) (fun _ st => exists v w, hs (fst st) (layout (rem_items x I) ++ loose x x v w ++ F)) (fun _ => False) (h, ([], [])).
Proof.
  intros W U N X H. destruct (in_item _ _ X) as (I1 & i & g1 & g2 & I2 & ->). rewrite (@rem_items_mid n); auto.
  unfold alg_unlink. destruct uniq.
  - assert (g1 = [] /\ g2 = []) as (-> & ->).
    { specialize (U eq_refl). apply Forall_app in U as (_ & U). apply Forall_inv in U. cbn [snd] in U. rewrite app_length in U. cbn in U.
      destruct g1, g2; cbn in U; try lia. auto. }
    cbn [app] in *. eapply u_unlink_lay; [exact W|exact H].
  - eapply n_unlink_lay; [exact W|exact H].
Qed.
Lemma untracked_lay h I x F : wfi n I -> (uniq = true -> single I) -> NoDup (elems I) -> In x (elems I) -> hs h (layout I ++ F) ->
  wp (untracked (alg_unlink uniq false x)) (fun _ h' => exists v w, hs h' (layout (rem_items x I) ++ loose x x v w ++ F)) (fun _ => False) h.
Proof.
  intros W U N X H. assert (P := @alg_unlink_lay false h I x F W U N X H). unfold untracked. unfold wp in *.
  destruct (alg_unlink uniq false x (h, ([], []))) as [u (h', tr)|(h', tr)|]; auto.
Qed.
Lemma tracked_lay h I x F : wfi n I -> (uniq = true -> single I) -> NoDup (elems I) -> In x (elems I) -> hs h (layout I ++ F) ->
  wp (tracked (alg_unlink uniq true x))
     (fun t h' => (exists v w, hs h' (layout (rem_items x I) ++ loose x x v w ++ F)) /\ exists h'', undo t h' = Ret tt h'' /\ hs h'' (layout I ++ F))
     (fun _ => False) h.
Proof.
  intros W U N X H. assert (P := @alg_unlink_lay true h I x F W U N X H). assert (T := tracked_undo uniq x h). unfold tracked in *. unfold wp in *.
  destruct (alg_unlink uniq true x (h, ([], []))) as [u (h', tr)|(h', tr)|]; auto. split; auto. destruct T as (h'' & E & He). exists h''. split; auto.
  eapply hs_ext; [exact H|]. intros c _. apply He.
Qed.

(** ** A node comes *)
Lemma put_node_lay x j h C : hs h C -> (forall c, In c C -> ~ of_node x (fst c)) -> hs (put_node x j h) (C ++ loose x x (fst j) (snd j)).
Proof.
  intros (N & F) S. unfold loose. split.
  - rewrite map_app. apply NoDup_app_iff. split; [exact N|]. split.
    + cbn. repeat constructor; cbn; intuition discriminate.
    + intros l H1 H2. apply in_map_iff in H1 as (c & <- & H1). apply (S c H1). unfold of_node. cbn in H2. intuition.
  - apply Forall_app. split.
    + rewrite Forall_forall in *. intros c Hc. rewrite <- (F c Hc). specialize (S c Hc). unfold put_node, hset, of_node in *.
      destruct (fst c) as [[y|b i]|y]; cbn [loc_eqb bptr_eqb]; auto; destruct (Nat.eqb_spec y x) as [->|]; auto; exfalso; auto.
    + unfold put_node, hset. repeat constructor; cbn [fst snd loc_eqb bptr_eqb]; now rewrite Nat.eqb_refl.
Qed.
End Lay.

Section Layer.
Variable V : Type.
Variable K : Type.
Variable throws : nat -> bool.
Variable pick : list node -> node.
Variable dv : V.
Variable hd : node.
Variable key : V -> K.
Variable eq : K -> K -> bool.
Variable hash : K -> nat.
Variable uniq : bool.
Variable L : Layer V.
Variable S : Spec V.
Variable rep : St L -> AV S -> Prop.
Variable shell : St L -> Prop.
Hypothesis O : OK throws pick dv hd L S rep shell.
Hypothesis HO : heq_ok eq hash.
Notation OM := (OM L).
Notation hok := (hok key eq hash uniq).
Notation classes := (classes key eq hash uniq).

(** ** Linking *)
(** an element with key [k] is added in front of its class *)
Inductive addk (vl : node -> V) (k : K) (n : nat) (x : node) : list item -> list item -> Prop :=
| addk_class G1 i g G2 : uniq = false -> (forall y, In y g -> eq k (key (vl y)) = true) ->
    addk vl k n x (G1 ++ (i, g) :: G2) (G1 ++ (i, x :: g) :: G2)
| addk_new G : (forall y, In y (elems G) -> eq k (key (vl y)) = false) ->
    addk vl k n x G (ins_front (position (hash k) n) [x] G).
Lemma addk_added vl vl' k n x G G' : addk vl k n x G G' -> key (vl' x) = k -> (forall y, In y (elems G) -> vl' y = vl y) ->
  added key eq hash vl' n x G G'.
Proof.
  intros [G1 i g G2 U H|G0 H] Ek Ev.
  - constructor. intros y Y. rewrite Ek, Ev; auto. rewrite elems_app, elems_cons, !in_app_iff. auto.
  - rewrite <- Ek. constructor. intros y Y. rewrite Ek, Ev; auto.
Qed.
Lemma addk_noconf vl k n x G G' : addk vl k n x G G' -> forall y, In y (elems G) -> ~ (uniq = true /\ eq k (key (vl y)) = true).
Proof.
  intros [G1 i g G2 U H|G0 H] y Y (U' & E); [congruence|]. rewrite H in E by auto. discriminate.
Qed.
Lemma classes_ne vl n I G : classes vl n I G -> Forall (fun c : item => snd c <> []) G.
Proof. intros (_ & C & _). eapply Forall_impl; [|exact C]. intros c (N & _). exact N. Qed.
Lemma wfi_flat vl n I G : 0 < n -> classes vl n I G -> ~ In null (elems G) -> wfi n I.
Proof.
  intros Hn (-> & C & _) N. apply Forall_forall. intros (i, g) H. unfold flat in H. apply in_flat_map in H as (c & Hc & H).
  rewrite Forall_forall in C. destruct (C c Hc) as (Nc & P & _). cbn [fst snd].
  assert (E := resplit_fst _ _ _ H). cbn [fst] in E. split; [|split].
  - destruct c as (j, g'). cbn [fst snd] in *. destruct g' as [|y g']; [easy|]. rewrite E, <- (P y) by now left. now apply Nat.mod_upper_bound; lia.
  - exact (resplit_shaped _ _ _ H).
  - intros X. apply N. apply in_elems. exists c. split; auto. exact (resplit_in _ _ _ H _ X).
Qed.

Lemma do_link_ok t s s' I G x k pos v w F : 0 < bc t -> wfi (bc t) I ->
  classes (val dv (bget L s)) (bc t) I G ->
  lp_spec dv key eq uniq L t s G k (position (hash k) (bc t)) (true, pos) ->
  hs (hp t) (layout (arr t) (bc t) hd I ++ loose x x v w ++ F) ->
  wp (do_link uniq hd L x pos)
     (fun _ st => exists h' G', st = (set_hp h' t, s') /\ addk (val dv (bget L s)) k (bc t) x G G' /\
        hs h' (layout (arr t) (bc t) hd (flat G') ++ F)) (fun _ => False) (t, s').
Proof.
  intros Hn W C Lp H. assert (Li : position (hash k) (bc t) < bc t) by (apply Nat.mod_upper_bound; lia).
  assert (Ne := classes_ne C). destruct C as (EI & C & _).
  assert (New : (forall y, In y (elems G) -> eq k (key (val dv (bget L s) y)) = false) ->
    wp (hpM L (link x (PB (arr t) (position (hash k) (bc t))) hd))
     (fun _ st => exists h' G', st = (set_hp h' t, s') /\ addk (val dv (bget L s)) k (bc t) x G G' /\
        hs h' (layout (arr t) (bc t) hd (flat G') ++ F)) (fun _ => False) (t, s')).
  { intros N. apply wp_hp1. rewrite link_link_range.
    eapply wp_conseq; [eapply (@link_range_lay (arr t) (bc t) hd) with (g := [x]) (I := I) (v := v) (w := w) (F := F)| |easy]; auto.
    - now left.
    - cbn beta. intros _ h' H'. exists h', (ins_front (position (hash k) (bc t)) [x] G). split; auto. split; [now constructor|].
      rewrite <- ins_flat by easy. cbn [resplit split length Nat.leb map fold_right snd]. rewrite <- EI. exact H'. }
  unfold do_link. inversion Lp as [N E|G1 g G2 U E Q Ep|]; subst pos; cbn [fst snd].
  - destruct uniq; [exact (New N)|]. rewrite Nat.eqb_refl. exact (New N).
  - apply wp_iff; [exact U|]. rewrite E in EI, Ne. rewrite flat_app, flat_cons in EI. cbn [fst snd] in EI.
    apply Forall_app in Ne as (_ & Ne). apply Forall_inv in Ne. cbn [snd] in Ne.
    set (i := position (hash k) (bc t)) in *.
    assert (Ng : ~ In null g).
    { intros X. apply (wfi_null W). rewrite EI, !elems_app, elems_resplit, !in_app_iff. auto. }
    assert (Nl : last_of g =? null = false). { apply Nat.eqb_neq. intros X. apply Ng. rewrite <- X. now apply last_in. }
    rewrite Nl. apply wp_hp1. cbn [pfrom]. apply wp_bind, wp_ret.
    assert (Fin : forall h', hs h' (layout (arr t) (bc t) hd (flat G1 ++ resplit i (x :: g) ++ flat G2) ++ F) ->
      exists h'' G', (set_hp h' t, s') = (set_hp h'' t, s') /\ addk (val dv (bget L s)) k (bc t) x G G' /\
        hs h'' (layout (arr t) (bc t) hd (flat G') ++ F)).
    { intros h' H'. exists h', (G1 ++ (i, x :: g) :: G2). split; auto. split; [rewrite E; now constructor|].
      now rewrite flat_app, flat_cons. }
    destruct (split_cases g) as [(-> & _)|[(y & -> & Es)|[(f & l & -> & Es)|(Lg & Es)]]]; [easy|..].
    + eapply wp_conseq; [eapply n_link_lay1; rewrite EI in H; exact H| |easy]. cbn beta. intros _ h' H'. apply Fin. exact H'.
    + eapply wp_conseq; [eapply n_link_lay2; rewrite EI in H; exact H| |easy]. cbn beta. intros _ h' H'. apply Fin. exact H'.
    + unfold resplit in EI. rewrite Es in EI. cbn [map app] in EI.
      assert (Sg : shaped g). { rewrite EI in W. apply wfi_app in W as (_ & W). apply wfi_cons in W as ((_ & X & _) & _). exact X. }
      eapply wp_conseq; [eapply n_link_lay3; [exact Sg|exact Lg|rewrite EI in H; exact H]| |easy]. cbn beta. intros _ h' H'. apply Fin.
      rewrite resplit_self; [exact H'|]. right. cbn. lia.
Qed.

(** ** Moving an element: unlinked, linked at its new place once the indices below agree; put back otherwise *)
Lemma h_move_spec t s n0 I G x k fb (m : M (St L) bool) (Qm : nat -> bool -> St L -> Prop) (Em : nat -> St L -> Prop) :
  let vl := val dv (bget L s) in
  0 < bc t -> wfi (bc t) I -> (uniq = true -> single I) -> NoDup (elems I) -> In x (elems I) ->
  hs (hp t) (layout (arr t) (bc t) hd I) -> (forall y, In y (elems I) -> live (bget L s) y) ->
  length (elems I) <= cget L s -> classes vl (bc t) (rem_items x I) G ->
  (forall h', Ro throws (set_hp h' t) s fb (fun i => i = position (hash k) (bc t))) ->
  (forall n, quiet throws n0 n ->
     wp m (fun r s' => cget L s' = cget L s /\ Qm n r s') (fun s' => cget L s' = cget L s /\ Em n s') (adv L n s)) ->
  wp (h_move_ throws key eq uniq hd L k x fb m)
    (fun r st => exists n h', quiet throws n0 n /\ fst st = set_hp h' t /\
       ((r = false /\ uniq = true /\ (exists y, In y (elems I) /\ y <> x /\ eq k (key (vl y)) = true) /\
         snd st = adv L n s /\ hs h' (layout (arr t) (bc t) hd I)) \/
        (cget L (snd st) = cget L s /\ Qm n r (snd st) /\
         if r : bool then exists G', addk vl k (bc t) x G G' /\ hs h' (layout (arr t) (bc t) hd (flat G'))
         else hs h' (layout (arr t) (bc t) hd I))))
    (fun st => exists h', fst st = set_hp h' t /\ hs h' (layout (arr t) (bc t) hd I) /\
       ((exists n, blown throws n0 n /\ snd st = adv L n s) \/
        (exists n, quiet throws n0 n /\ cget L (snd st) = cget L s /\ Em n (snd st))))
    (t, adv L n0 s).
Proof.
  intros vl Hn W U N X H LV SZ CL Hb Hm. unfold h_move_, unlink_undo. apply wp_hp.
  eapply wp_conseq; [eapply (@tracked_lay (arr t) (bc t) hd uniq) with (F := []); rewrite ?app_nil_r; eauto| |easy].
  cbn beta. rewrite !app_nil_r. intros u h1 ((v & w & H1) & h2 & Eu & H2). rewrite app_nil_r in H1.
  assert (W1 := rem_wfi x W). assert (U1 : uniq = true -> single (rem_items x I)) by (intros E; apply rem_single; auto).
  assert (Sub : forall y, In y (elems (rem_items x I)) -> In y (elems I) /\ y <> x).
  { intros y Y. rewrite elems_rem in Y. apply in_remove in Y. auto. }
  assert (SZ1 : length (elems (rem_items x I)) <= Datatypes.S (cget L s)).
  { rewrite elems_rem. eapply Nat.le_trans; [apply remove_length_le|]. apply le_S. exact SZ. }
  set (t1 := set_hp h1 t) in *.
  assert (Undo : forall s' (Q : bool -> ost L -> Prop) (E : ost L -> Prop), Q false (set_hp h2 t, s') ->
            wp (hpM L (undo u) ;;; ret false) Q E (t1, s')).
  { intros s' Q E HQ. apply wp_hp. unfold wp. cbn [t1 set_hp hp]. unfold t1. cbn [set_hp hp]. rewrite Eu. exact HQ. }
  assert (Redo : forall s' (Q : bool -> ost L -> Prop) (E : ost L -> Prop), E (set_hp h2 t, s') ->
            wp (hpM L (undo u) ;;; throw) Q E (t1, s')).
  { intros s' Q E HQ. apply wp_hp. unfold wp. unfold t1. cbn [set_hp hp]. rewrite Eu. exact HQ. }
  apply wp_try. eapply Ro_wpn; [apply Hb| |].
  2:{ intros n B. apply Redo. exists h2. cbn [fst snd]. splits; auto. left. eauto. }
  intros i n -> q. eapply Ro_wpn.
  - eapply (@link_point_ok V K throws pick dv key eq hash uniq hd L S rep shell O HO t1 s (rem_items x I) (loose x x v w)); eauto.
    intros y Y. apply LV. now apply Sub.
  - intros (ok, pos) n' Hp q'. assert (qq : quiet throws n0 n') by (eapply quiet_trans; eauto).
    apply wp_bind. destruct ok.
    + apply wp_sup. eapply wp_conseq; [apply (Hm n' qq)| |].
      * intros r s' (C & HQ). cbn [fst]. destruct r.
        -- apply wp_bind. eapply wp_conseq; [eapply (@do_link_ok t1 s s' (rem_items x I) G x k pos v w []); eauto; rewrite app_nil_r; exact H1| |easy].
           cbn beta. intros _ st (h' & G' & -> & A & H'). rewrite app_nil_r in H'. apply wp_ret. exists n', h'. splits; auto. right. cbn [snd]. splits; eauto.
        -- apply Undo. exists n', h2. splits; auto.
      * intros s' (C & HE). apply Redo. exists h2. cbn [fst snd]. splits; auto. right. eauto.
    + apply wp_ret. apply Undo. exists n', h2. splits; auto. left. cbn [snd].
      inversion Hp as [|?|y Ux Y Ey Ep]; subst. splits; auto. destruct CL as (EI & _). exists y.
      assert (In y (elems (rem_items x I))) as Z by (rewrite EI, elems_flat; exact Y). destruct (Sub y Z). auto.
  - intros n' B. apply Redo. exists h2. cbn [fst snd]. splits; auto. left. exists n'. split; auto. eapply blown_trans; eauto.
Qed.

(** ** Growing before an insertion *)
Lemma reserve_ok (pick_ok : forall l, ~ In (pick l) (null :: l)) w t s m I :
  let vl := val dv (bget L s) in
  tabled (bc t) -> wfi (bc t) I -> hs (hp t) (layout (arr t) (bc t) hd I) -> hok vl (bc t, I) ->
  (forall y, In y (elems I) -> live (bget L s) y) -> look (mem (bget L s)) hd = Some None -> length (elems I) = cget L s ->
  wp (reserve_for_insert throws pick key hash uniq hd L w)
     (fun _ st => exists m' t' I', quiet throws m m' /\ st = (t', adv L m' s) /\ hsame key hash vl (bc t, I) (bc t', I') /\
        tabled (bc t') /\ wfi (bc t') I' /\ hs (hp t') (layout (arr t') (bc t') hd I'))
     (fun st => exists m' h', blown throws m m' /\ st = (set_hp h' t, adv L m' s) /\ hs h' (layout (arr t) (bc t) hd I))
     (t, adv L m s).
Proof.
  intros vl Hn W H Hok LV Hm Sz. unfold reserve_for_insert. apply wp_get. destruct (ml t <? w).
  - apply wp_get. eapply wp_conseq; [eapply unchecked_rehash_ok; [exact O|exact pick_ok|exact W|exact H|exact Hok|exact LV|exact Hm|exact Sz]| |].
    + cbn beta. intros ? st (m' & h' & q & -> & H'). eexists m', _, _. split; [exact q|]. split; [reflexivity|]. cbn [bc arr hp].
      split; [right; eexists; reflexivity|]. split; [apply tabled_bcount|]. split; [|exact H']. eapply rehashed_wfi; [apply bcount_pos|exact W].
    + cbn beta. auto.
  - apply wp_ret. exists m, t, I. splits; auto; [apply quiet_refl|now left].
Qed.

Lemma rehash_ok (pick_ok : forall l, ~ In (pick l) (null :: l)) w t s m I :
  let vl := val dv (bget L s) in
  tabled (bc t) -> wfi (bc t) I -> hs (hp t) (layout (arr t) (bc t) hd I) -> hok vl (bc t, I) ->
  (forall y, In y (elems I) -> live (bget L s) y) -> look (mem (bget L s)) hd = Some None -> length (elems I) = cget L s ->
  wp (rehash throws pick key hash uniq hd L w)
     (fun _ st => exists m' t' I', quiet throws m m' /\ st = (t', adv L m' s) /\ hsame key hash vl (bc t, I) (bc t', I') /\
        tabled (bc t') /\ wfi (bc t') I' /\ hs (hp t') (layout (arr t') (bc t') hd I') /\ pol t' = pol t /\
        (t' = t /\ cget L s <= ml t /\ w <= bc t \/
         bc t' = bcount (Nat.max (want (pol t) (cget L s)) w) /\ ml t' = load (pol t) (bc t')))
     (fun st => exists m' h', blown throws m m' /\ st = (set_hp h' t, adv L m' s) /\ hs h' (layout (arr t) (bc t) hd I))
     (t, adv L m s).
Proof.
  intros vl Hn W H Hok LV Hm Sz. unfold rehash. eapply wp_size; [exact O|]. apply wp_get. apply wp_get.
  destruct (_ && _) eqn:C.
  - apply andb_true_iff in C as (C1 & C2). apply Nat.leb_le in C1, C2. apply wp_ret. exists m, t, I. splits; auto; [apply quiet_refl|now left].
  - apply wp_get. eapply wp_conseq; [eapply unchecked_rehash_ok; [exact O|exact pick_ok|exact W|exact H|exact Hok|exact LV|exact Hm|exact Sz]| |].
    + cbn beta. intros ? st (m' & h' & q & -> & H'). eexists m', _, _. split; [exact q|]. split; [reflexivity|]. cbn [bc arr hp].
      split; [right; eexists; reflexivity|]. split; [apply tabled_bcount|]. split; [eapply rehashed_wfi; [apply bcount_pos|exact W]|]. split; [exact H'|]. split; [reflexivity|].
      right. cbn [ml]. split; [|reflexivity]. f_equal. destruct (Nat.ltb_spec (want (pol t) (cget L s)) w); lia.
    + cbn beta. auto.
Qed.

(** ** Deletion of all nodes *)
Definition mend (x y : node) : HM unit :=
  b <- nxt y ;;
  if bptr_eqb b (PN x) then ret tt
  else
    z <- pri b ;;
    if z =? x then ret tt
    else b <- nxt y ;; first <- pfrom b ;; n <- nxt first ;; set_pri n first.
Lemma drop_cells h x v w C : hs h ((NX x, w) :: (PR (PN x), v) :: C) -> hs (drop_node x h) C.
Proof.
  intros H. apply drop_node_lay; [exact (hs_cons (hs_cons H))|]. intros c Hc Oc.
  destruct H as (N & _). cbn [map fst] in N. apply NoDup_cons_iff in N as (N1 & N). apply NoDup_cons_iff in N as (N2 & _).
  apply (in_map fst) in Hc. unfold of_node in Oc. destruct Oc as [E|E]; rewrite E in Hc; cbn in *; tauto.
Qed.
Definition gone (l : list node) (s : St L) : St L := bset L (mkB (without l (mem (bget L s))) (tk (bget L s))) s.
Lemma gone_nil s : gone [] s = s.
Proof.
  unfold gone. rewrite without_nil. replace (mkB (mem (bget L s)) (tk (bget L s))) with (bget L s) by now destruct (bget L s).
  apply (o_gs O).
Qed.
Lemma gone_gone l l' s : gone l' (gone l s) = gone (l ++ l') s.
Proof. unfold gone. rewrite (o_bb O), (o_ss O). cbn [mem tk]. now rewrite without_app. Qed.
Lemma gone_perm l l' s : Permutation l l' -> gone l s = gone l' s.
Proof. intros P. unfold gone. now rewrite (without_perm _ P). Qed.
Lemma gone_live l s x : live (bget L s) x -> ~ In x l -> live (bget L (gone l s)) x.
Proof. intros (v & H) N. exists v. unfold gone. rewrite (o_bb O). cbn [mem]. now rewrite look_without. Qed.
Lemma del_step fuel x y t s h1 (Q : unit -> ost L -> Prop) E : x <> hd -> hp t (PR (PN x)) = Some (PN y) -> live (bget L s) x ->
  (uniq = false -> mend x y (hp t) = Ret tt h1) -> (uniq = true -> h1 = hp t) ->
  wp (del_all uniq hd L fuel y) Q E (set_hp (drop_node x h1) t, gone [x] s) ->
  wp (del_all uniq hd L (Datatypes.S fuel) x) Q E (t, s).
Proof.
  intros Nx Py (v & Lk) M1 M2 H. cbn [del_all]. rewrite (proj2 (Nat.eqb_neq x hd) Nx).
  assert (Ry : Rd (pri (PN x)) y (hp t)) by (apply Rd_eq; unfold pri, rd, bind; now rewrite Py).
  eapply wp_rdhp; [exact Ry|]. clear Ry.
  apply wp_bind. apply wp_conseq with (Q := fun (_ : unit) st => st = (set_hp h1 t, s)) (E := fun _ => False); [| |easy].
  - destruct uniq.
    + apply wp_ret. rewrite (M2 eq_refl), set_hp_self. reflexivity.
    + apply wp_hp1. specialize (M1 eq_refl). unfold mend in M1. unfold wp. now rewrite M1.
  - intros ? st ->. apply wp_bind. unfold del. apply wp_bind. apply wp_sup, wp_lens.
    unfold delete_node, destroy_value, deallocate_node, bind at 1, wp at 1. cbn [snd].
    rewrite Lk. cbn - [mdel mset]. rewrite look_mset, Nat.eqb_refl, Lk. cbn - [mdel mset]. rewrite mdel_mset.
    unfold gone in H. rewrite <- without_one in H. exact H.
Qed.

Section Del.
Variable a : nat.
Definition ends (I : list item) : Prop := forall fuel t s w F,
  hs (hp t) (links a None hd I ++ (NX (lastn hd I), w) :: F) -> (forall y, In y (elems I) -> live (bget L s) y) ->
  length (elems I) < fuel ->
  wp (del_all uniq hd L fuel (lastn hd I))
     (fun _ st => exists h' w' F', st = (set_hp h' t, gone (elems I) s) /\ hs h' ((NX hd, w') :: F' ++ F)) (fun _ => False) (t, s).

Lemma own_nodup I f m t w F : Forall (fun it : item => shaped (snd it)) I -> forall pi i,
  hs (hp t) (links a None hd I ++ joint a pi (lastn hd I) i f ++ dl f m ++ (NX (last m f), w) :: F) ->
  NoDup ((hd :: elems I) ++ f :: m).
Proof.
  intros Sh pi i (N & _). apply own_nd in N. rewrite !own_app, own_joint in N. rewrite app_assoc in N.
  assert (P := own_links a None hd Sh). change ((NX (last m f), w) :: F) with ([(NX (last m f), w)] ++ F) in N.
  rewrite own_app, !app_assoc in N. apply NoDup_app_iff in N as (N & _). rewrite <- app_assoc in N.
  cbn [own flat_map fst app] in N. fold (own (dl f m)) in N. rewrite own_dl in N.
  eapply NoDup_perm; [|exact N]. apply Permutation_app_tail. exact P.
Qed.

Lemma del_plain I i f (PI : ends I) (Sh : Forall (fun it : item => shaped (snd it)) I) : forall m fuel t s w F,
  hs (hp t) (links a None hd I ++ joint a (idx None I) (lastn hd I) i f ++ dl f m ++ (NX (last m f), w) :: F) ->
  (forall y, In y (elems I ++ f :: m) -> live (bget L s) y) -> length (elems I ++ f :: m) < fuel ->
  wp (del_all uniq hd L fuel (last m f))
     (fun _ st => exists h' w' F', st = (set_hp h' t, gone (elems I ++ f :: m) s) /\ hs h' ((NX hd, w') :: F' ++ F)) (fun _ => False) (t, s).
Proof.
  intros m. induction m as [|x m IH] using rev_ind; intros fuel t s w F H LV Fu.
  - destruct fuel as [|fuel]; [lia|]. assert (ND := own_nodup _ _ _ _ _ Sh _ _ H). cbn [last dl app] in *.
    set (p := lastn hd I) in *.
    assert (exists b F0, hs (hp t) ((NX f, w) :: (PR (PN f), PN p) :: links a None hd I ++ (NX p, b) :: F0 ++ F) /\
       (b = PN f \/ In (PR b, PN f) F0)) as (b & F0 & H' & Hb).
    { unfold joint in H. destruct (same_bucket (idx None I) i).
      - exists (PN f), []. split; [eapply hs_perm; [|exact H]; permc|auto].
      - exists (PB a i), [(PR (PB a i), PN f)]. split; [eapply hs_perm; [|exact H]; permc|cbn; auto]. }
    clear H. eapply del_step with (y := p) (h1 := hp t).
    + intros ->. apply NoDup_cons_iff in ND as (ND & _). apply ND, in_or_app. right. now left.
    + eapply hs_in; [exact H'|]. right. now left.
    + apply LV, in_or_app. right. now left.
    + intros _. unfold mend. assert (Eb : hp t (NX p) = Some b) by (eapply hs_in; [exact H'|]; right; right; apply in_or_app; right; now left).
      unfold nxt, pri, rd, bind. rewrite Eb. unfold ret. destruct Hb as [->|Hb].
      * cbn [bptr_eqb]. rewrite Nat.eqb_refl. reflexivity.
      * destruct (bptr_eqb b (PN f)); [reflexivity|].
        assert (Ep : hp t (PR b) = Some (PN f)) by (eapply hs_in; [exact H'|]; right; right; apply in_or_app; right; right; apply in_or_app; now left).
        rewrite Ep. cbn [pfrom ret]. unfold ret. rewrite Nat.eqb_refl. reflexivity.
    + auto.
    + assert (H2 := drop_cells H'). eapply wp_conseq; [apply (PI fuel _ (gone [f] s) b (F0 ++ F))| |easy].
      * exact H2.
      * intros y Y. apply gone_live; [apply LV, in_or_app; auto|]. intros [<-|[]].
        apply NoDup_cons_iff in ND as (_ & ND). apply NoDup_remove_2 in ND. rewrite app_nil_r in ND. auto.
      * rewrite app_length in Fu. cbn in Fu. lia.
      * cbn beta. intros ? st (h' & w' & F' & -> & H3). exists h', w', (F' ++ F0). rewrite <- app_assoc. split; auto. rewrite gone_gone. f_equal.
        apply gone_perm. cbn [app]. now rewrite <- Permutation_middle, app_nil_r.
  - destruct fuel as [|fuel]; [lia|]. assert (ND := own_nodup _ _ _ _ _ Sh _ _ H). rewrite last_last in *. rewrite dl_app in H.
    cbn [dl] in H. set (y := last m f) in *.
    assert (H' : hs (hp t) ((NX x, w) :: (PR (PN x), PN y) :: (links a None hd I ++ joint a (idx None I) (lastn hd I) i f ++ dl f m ++ (NX y, PN x) :: F)))
      by (eapply hs_perm; [|exact H]; permc).
    assert (ND' : NoDup (x :: hd :: elems I ++ f :: m)).
    { eapply NoDup_perm; [|exact ND]. rewrite (app_comm_cons m [x] f), app_assoc. rewrite <- Permutation_cons_append. reflexivity. }
    eapply del_step with (y := y) (h1 := hp t).
    + intros ->. apply NoDup_cons_iff in ND' as (ND' & _). apply ND'. now left.
    + eapply hs_in; [exact H'|]. right. now left.
    + apply LV. apply in_or_app. right. right. apply in_or_app. right. now left.
    + intros _. unfold mend, nxt, rd, bind. assert (Eb : hp t (NX y) = Some (PN x)).
      { eapply hs_in; [exact H'|]. right. right. rewrite !in_app_iff. right. right. right. now left. }
      rewrite Eb. cbn [bptr_eqb]. rewrite Nat.eqb_refl. reflexivity.
    + auto.
    + assert (H2 := drop_cells H'). eapply wp_conseq; [apply (IH fuel _ (gone [x] s) (PN x) F)| |easy].
      * exact H2.
      * intros z Z. apply gone_live.
        -- apply LV. rewrite (app_comm_cons m [x] f), app_assoc, in_app_iff. now left.
        -- intros [<-|[]]. apply NoDup_cons_iff in ND' as (ND' & _). apply ND'. now right.
      * rewrite !app_length in *. cbn in *. rewrite app_length in Fu. cbn in Fu. lia.
      * cbn beta. intros ? st (h' & w' & F' & -> & H3). exists h', w', F'. split; auto. rewrite gone_gone. f_equal.
        apply gone_perm. rewrite (app_comm_cons m [x] f), (app_assoc (elems I)). rewrite <- Permutation_cons_append. reflexivity.
Qed.


Lemma del_items n I : wfi n I -> (uniq = true -> single I) -> ends I.
Proof.
  induction I as [|(i, g) I IH] using rev_ind; intros W U fuel t s w F H LV Fu.
  - destruct fuel as [|fuel]; [cbn in Fu; lia|]. cbn [del_all lastn]. rewrite Nat.eqb_refl. apply wp_ret.
    exists (hp t), w, []. cbn [elems flat_map]. rewrite gone_nil, set_hp_self. auto.
  - apply wfi_app in W as (W & Wg). apply wfi_cons in Wg as ((_ & Sg & Ng) & _).
    assert (PI : ends I). { apply IH; auto. intros E. specialize (U E). now apply Forall_app in U. }
    assert (Sh := wfi_shaped W). rewrite links_app, lastn_app in H. rewrite lastn_app. rewrite elems_app in *.
    change (elems [(i, g)]) with (g ++ []) in *. rewrite app_nil_r in *. cbn [links lastn last snd] in H |- *. rewrite app_nil_r in H.
    destruct (shaped_cases Sg) as [(f & ->)|(f & sc & m & l & ->)].
    + cbn [first_of List.hd inner app last_of last] in *. 
      eapply (@del_plain I i f PI Sh [] fuel t s w F); auto. rewrite <- !app_assoc in H. exact H.
    + rewrite grp_first, grp_last in *. rewrite inner_grp in H. set (y := last m sc) in *.
      assert (Un : uniq = false).
      { destruct (bool_dec uniq true) as [E|E]; [|now destruct uniq]. specialize (U E). apply Forall_app in U as (_ & U). apply Forall_inv in U.
        cbn [snd length] in U. rewrite app_length in U. cbn in U. lia. }
      assert (H' : hs (hp t) ((NX l, w) :: (PR (PN l), PN y) :: (NX y, PN f) :: (NX f, PN sc) :: (PR (PN sc), PN l) ::
          (links a None hd I ++ joint a (idx None I) (lastn hd I) i f ++ dl sc m ++ F))) by (eapply hs_perm; [|exact H]; permc).
      clear H. destruct fuel as [|fuel]; [lia|].
      assert (ND : NoDup ((hd :: elems I) ++ f :: sc :: m ++ [l])).
      { destruct H' as (N & _). apply own_nd in N. cbn [own flat_map fst app] in N.
        change (flat_map _ ?C) with (own C) in N. rewrite !own_app, own_joint in N.
        assert (P := own_links a None hd Sh). assert (P2 := own_dl sc m). fold y in P2.
        rewrite !app_assoc in N. apply NoDup_perm with (l' := ((own (links a None hd I) ++ [lastn hd I]) ++ f :: (own (dl sc m) ++ [y]) ++ [l]) ++ own F) in N.
        - apply NoDup_app_iff in N as (N & _). rewrite P2 in N. eapply NoDup_perm; [|exact N]. apply Permutation_app_tail. exact P.
        - perm. }
      assert (Nl : ~ In l ((hd :: elems I) ++ f :: sc :: m)).
      { intros X. change (f :: sc :: m ++ [l]) with ((f :: sc :: m) ++ [l]) in ND. rewrite app_assoc in ND. apply NoDup_remove_2 in ND. rewrite app_nil_r in ND. auto. }
      assert (Pf : exists p, In (PR (PN f), PN p) (joint a (idx None I) (lastn hd I) i f) /\ p <> l).
      { exists (lastn hd I). split; [unfold joint; destruct (same_bucket _ _); cbn; auto|]. intros E. apply Nl. rewrite <- E. apply in_or_app. left.
        assert (P := own_links a None hd Sh). eapply Permutation_in; [exact P|]. apply in_or_app. right. now left. }
      destruct Pf as (p & Pf & Np).
      set (h1 := hset (hp t) (PR (PN sc)) (Some (PN f))).
      assert (H1 : hs h1 ((NX l, w) :: (PR (PN l), PN y) :: (NX y, PN f) :: (NX f, PN sc) :: (PR (PN sc), PN f) ::
          (links a None hd I ++ joint a (idx None I) (lastn hd I) i f ++ dl sc m ++ F))).
      { eapply hs_wr; [exact H'|]. repeat first [apply repl_here|apply repl_skip]. }
      eapply del_step with (y := y) (h1 := h1).
      * intros ->. apply Nl. now left.
      * eapply hs_in; [exact H'|]. right. now left.
      * apply LV. rewrite !in_app_iff. right. right. right. apply in_or_app. right. now left.
      * intros _. unfold mend, nxt, pri, set_pri, rd, wr, bind.
        assert (E1 : hp t (NX y) = Some (PN f)) by (eapply hs_in; [exact H'|]; cbn; auto).
        assert (E2 : hp t (PR (PN f)) = Some (PN p)) by (eapply hs_in; [exact H'|]; do 5 right; rewrite !in_app_iff; auto).
        assert (E3 : hp t (NX f) = Some (PN sc)) by (eapply hs_in; [exact H'|]; cbn; auto 6).
        assert (E4 : hp t (PR (PN sc)) = Some (PN l)) by (eapply hs_in; [exact H'|]; cbn; auto 7).
        rewrite E1. unfold ret. cbn [bptr_eqb]. destruct (Nat.eqb_spec f l) as [->|_]; [exfalso; apply Nl, in_or_app; right; now left|].
        rewrite E2. cbn [pfrom]. unfold ret. rewrite (proj2 (Nat.eqb_neq p l) Np). rewrite E1. cbn [pfrom]. unfold ret. rewrite E3, E4. reflexivity.
      * intros E. congruence.
      * assert (H2 := drop_cells H1).
        assert (Ey : y = last (sc :: m) f) by (unfold y; now rewrite last_cons).
        rewrite Ey. eapply wp_conseq; [apply (@del_plain I i f PI Sh (sc :: m) fuel _ (gone [l] s) (PN f) F)| |easy].
        -- cbn [set_hp hp]. rewrite <- Ey. cbn [dl]. eapply hs_perm; [|exact H2]. permc.
        -- intros z Z. apply gone_live.
           ++ apply LV. rewrite in_app_iff in *. destruct Z as [Z|[Z|[Z|Z]]]; auto; right; [now left|right; now left|right; right; apply in_or_app; auto].
           ++ intros [<-|[]]. apply Nl. cbn [app]. now right.
        -- rewrite !app_length in *. cbn in *. rewrite app_length in Fu. cbn in Fu. lia.
        -- cbn beta. intros ? st (h' & w' & F' & -> & H3). exists h', w', F'. split; auto. rewrite gone_gone. f_equal.
           apply gone_perm. perm.
Qed.
End Del.
End Layer.
