(** Rehashing of hashed indices, also when a hash function throws. *)
From Coq Require Import NArith.
From Verif Require Import Prelude Layer LayerBase HashModel HashIdx HashHeap HashAlg HashLink HashLay HashOps HashRead HashSpec HashPoint HashPlace.
Set Implicit Arguments.

(** ** Separation *)
(** some of the cells, in another order *)
Lemma hs_some h (C F : list cell) ls : hs h (C ++ F) -> NoDup ls -> incl ls (map fst C) -> exists C', map fst C' = ls /\ hs h (C' ++ F).
Proof.
  intros H. revert C H. induction ls as [|l ls IH]; intros C H N S.
  - exists []. split; auto. eapply hs_r; exact H.
  - inversion N as [|? ? N1 N2]; subst. assert (L : In l (map fst C)) by (apply S; now left).
    apply in_map_iff in L as ((l', v) & El & L). cbn in El. subst l'. apply in_split in L as (C1 & C2 & ->).
    assert (H' : hs h ((C1 ++ C2) ++ (l, v) :: F)).
    { eapply hs_perm; [|exact H]. permc. }
    destruct (IH (C1 ++ C2)) as (C' & E & Hc); auto.
    + eapply hs_l with (D := [(l, v)]). eapply hs_perm; [|exact H']. permc.
    + intros k K. assert (K' : In k (map fst (C1 ++ (l, v) :: C2))) by (apply S; now right).
      rewrite map_app, in_app_iff in K'. cbn [map fst In] in K'. rewrite map_app, in_app_iff.
      destruct K' as [K'|[K'|K']]; auto. subst k. contradiction.
    + exists ((l, v) :: C'). split; [cbn; now rewrite E|].
      destruct Hc as (Nc & Fc). split.
      * cbn [app map fst]. constructor; auto. rewrite map_app, E, in_app_iff. intros [K|K]; [contradiction|].
        destruct H' as (N' & _). rewrite map_app in N'. apply NoDup_app_iff in N' as (_ & N' & _). cbn in N'. now inversion N'.
      * cbn [app]. constructor; auto. cbn. eapply (hs_in _ _ H). apply in_or_app. left. apply in_or_app. right. now left.
Qed.

(** locations of bucket arrays, of nodes *)
Definition of_array (a : nat) (l : loc) : Prop := exists i, l = PR (PB a i).
Definition of_node (x : node) (l : loc) : Prop := l = NX x \/ l = PR (PN x).

Section Array.
Variables (a n : nat) (hd : node).
Notation layout := (layout a n hd).
Lemma loc_of_joint pi p i q c : In c (joint a pi p i q) -> of_array a (fst c) \/ of_node p (fst c) \/ of_node q (fst c).
Proof.
  unfold joint. destruct (same_bucket pi i); cbn [In]; unfold of_array, of_node; intros H;
    repeat (destruct H as [<-|H]; cbn [fst]; eauto); easy.
Qed.
Lemma loc_of_dl p l c : In c (dl p l) -> exists x, In x (p :: l) /\ of_node x (fst c).
Proof.
  revert p. induction l as [|q l IH]; intros p; [easy|]. cbn [dl In]. unfold of_node in *. intros [<-|[<-|H]]; cbn [fst].
  - exists p. auto.
  - exists q. auto.
  - destruct (IH q H) as (x & X & E). exists x. cbn [In] in X. tauto.
Qed.
Lemma loc_of_inner g c : shaped g -> In c (inner g) -> exists x, In x g /\ of_node x (fst c).
Proof.
  intros S H. destruct (shaped_cases S) as [(x & ->)|(f & s & m & l & ->)]; [easy|]. rewrite inner_grp in H.
  unfold of_node. assert (Lm : In (last m s) (s :: m)).
  { destruct m as [|y m]; [now left|]. right. apply last_in. easy. }
  destruct H as [<-|[<-|H]]; cbn [fst].
  - exists f. cbn. auto.
  - exists s. cbn. auto.
  - apply in_app_or in H as [H|[<-|[<-|[]]]]; cbn [fst].
    + apply loc_of_dl in H as (x & X & E). exists x. cbn [In] in *. rewrite in_app_iff. split; [tauto|exact E].
    + exists (last m s). cbn [In] in *. rewrite in_app_iff. tauto.
    + exists l. cbn [In]. rewrite in_app_iff. cbn. tauto.
Qed.
Lemma loc_of_links I : forall pi p c, Forall (fun it : item => shaped (snd it)) I -> In c (links a pi p I) ->
  of_array a (fst c) \/ exists x, In x (p :: elems I) /\ of_node x (fst c).
Proof.
  induction I as [|(i, g) I IH]; intros pi p c S H; [easy|]. cbn [links] in H. inversion S as [|? ? S1 S2]; subst. cbn [snd] in S1.
  rewrite elems_cons. apply in_app_or in H as [H|H].
  - apply loc_of_joint in H as [H|[H|H]]; auto; right.
    + exists p. split; auto. now left.
    + exists (first_of g). split; auto. right. apply in_or_app. left. now apply first_in.
  - apply in_app_or in H as [H|H].
    + right. apply loc_of_inner in H as (x & X & E); auto. exists x. split; auto. right. apply in_or_app. auto.
    + apply IH in H as [H|(x & X & E)]; auto. right. exists x. split; auto. right. apply in_or_app. destruct X as [<-|X]; auto.
      left. now apply lasto_in.
Qed.
Lemma loc_of_layout I c : wfi n I -> In c (layout I) -> of_array a (fst c) \/ exists x, In x (hd :: elems I) /\ of_node x (fst c).
Proof.
  intros W H. unfold HashHeap.layout in H. apply in_app_or in H as [H|H].
  - apply loc_of_links in H.
    + destruct H as [H|(x & X & E)]; auto. right. exists x. split; auto. rewrite elems_app, elems_cons in X. cbn [In] in *.
      rewrite in_app_iff in X. cbn in X. tauto.
    + apply Forall_app. split; [|repeat constructor]. eapply Forall_impl; [|exact W]. intros it (_ & Hs & _). exact Hs.
  - left. apply empties_shape in H as (i & _ & ->). exists i. reflexivity.
Qed.
(** single elements own their fields *)
Lemma first_field I : forall pi p i g, In (i, g) I -> exists v, In (PR (PN (first_of g)), v) (links a pi p I).
Proof.
  induction I as [|(j, g') I IH]; intros pi p i g H; [easy|]. cbn [links]. destruct H as [E|H].
  - injection E as -> ->. exists (PN p). apply in_or_app. left. unfold joint. destruct (same_bucket pi i); cbn; auto.
  - destruct (IH (Some j) (last_of g') i g H) as (v & Hv). exists v. rewrite !in_app_iff. auto.
Qed.
Lemma own_cell C x : In x (own C) -> In (NX x) (map fst C).
Proof. apply own_in. Qed.
Definition fields (x : node) : list loc := [NX x; PR (PN x)].
Lemma fields_layout I : wfi n I -> Forall (fun it : item => length (snd it) = 1) I -> incl (flat_map fields (elems I)) (map fst (layout I)).
Proof.
  intros W U l H. apply in_flat_map in H as (x & X & H). destruct H as [<-|[<-|[]]].
  - apply own_cell. eapply Permutation_in; [symmetry; now apply own_layout|]. now right.
  - apply in_elems in X as ((i, g) & Hi & X). cbn [snd] in X. rewrite Forall_forall in U. specialize (U _ Hi). cbn [snd] in U.
    destruct g as [|y [|]]; cbn in U; try lia. destruct X as [->|[]].
    destruct (first_field (I ++ [(n, [hd])]) None hd i [x]) as (v & Hv); [apply in_or_app; auto|].
    apply in_map_iff. exists (PR (PN x), v). split; auto. unfold HashHeap.layout. apply in_or_app. now left.
Qed.

(** a new array, and its end *)
Lemma layout_nil : layout [] = [(NX hd, PB a n); (PR (PB a n), PN hd); (PR (PN hd), PN hd)] ++ empties a n [].
Proof. reflexivity. Qed.
Lemma new_array_lay h C : hs h C -> (forall c, In c C -> ~ of_array a (fst c) /\ ~ of_node hd (fst c)) ->
  hs (new_array a n hd h) (layout [] ++ C).
Proof.
  intros (N & F) S. split.
  - rewrite map_app. apply NoDup_app_iff. split; [|split].
    + rewrite layout_nil. cbn [app map fst]. repeat constructor.
      * cbn [In]. intros [E|[E|E]]; try discriminate. apply in_map_iff in E as (c & E & H). apply empties_shape in H as (i & _ & ->). discriminate.
      * cbn [In]. intros [E|E]; try discriminate. apply in_map_iff in E as (c & E & H). apply empties_shape in H as (i & L & ->).
        injection E as ->. lia.
      * cbn [In]. intros E. apply in_map_iff in E as (c & E & H). apply empties_shape in H as (i & _ & ->). discriminate.
      * apply empties_nd.
    + exact N.
    + intros l H1 H2. apply in_map_iff in H2 as (c & <- & H2). destruct (S c H2) as (S1 & S2).
      apply in_map_iff in H1 as (d & E & H1). apply loc_of_layout in H1; [|constructor]. rewrite E in H1.
      destruct H1 as [H1|(x & [<-|[]] & H1)]; auto.
  - apply Forall_app. split.
    + rewrite layout_nil. cbn [app]. unfold new_array. repeat constructor; cbn [fst snd].
      * unfold hset. now rewrite ?loc_eqb_refl.
      * unfold hset. cbn [loc_eqb bptr_eqb]. now rewrite !Nat.eqb_refl, Nat.ltb_irrefl.
      * unfold hset. cbn [loc_eqb bptr_eqb]. now rewrite Nat.eqb_refl.
      * apply Forall_forall. intros c Hc. apply empties_shape in Hc as (i & L & ->). cbn [fst snd]. unfold hset. cbn [loc_eqb bptr_eqb].
        rewrite Nat.eqb_refl. now rewrite (proj2 (Nat.ltb_lt i n)).
    + rewrite Forall_forall in *. intros c Hc. rewrite <- (F c Hc). destruct (S c Hc) as (S1 & S2). unfold new_array, hset, of_array, of_node in *.
      destruct (fst c) as [[y|b i]|y]; cbn [loc_eqb bptr_eqb].
      * destruct (Nat.eqb_spec y hd) as [->|]; [exfalso; auto|reflexivity].
      * destruct (Nat.eqb_spec a b) as [->|]; [exfalso; eauto|reflexivity].
      * destruct (Nat.eqb_spec y hd) as [->|]; [exfalso; auto|reflexivity].
Qed.
Lemma free_array_lay h C : hs h C -> (forall c, In c C -> ~ of_array a (fst c)) -> hs (free_array a h) C.
Proof.
  intros H S. eapply hs_ext; [exact H|]. intros c Hc. specialize (S c Hc). unfold free_array, of_array in *.
  destruct (fst c) as [[y|b i]|y]; auto. destruct (Nat.eqb_spec a b) as [->|]; [exfalso; eauto|reflexivity].
Qed.
End Array.
Lemma drop_node_lay x h C : hs h C -> (forall c, In c C -> ~ of_node x (fst c)) -> hs (drop_node x h) C.
Proof.
  intros H S. eapply hs_ext; [exact H|]. intros c Hc. specialize (S c Hc). unfold drop_node, hset, of_node in *.
  destruct (fst c) as [[y|b i]|y]; cbn [loc_eqb bptr_eqb]; auto; destruct (Nat.eqb_spec y x) as [->|]; auto; exfalso; auto.
Qed.

(** ** The new chain gets the header *)
Definition adopt (hd ce : node) : HM unit :=
  z <- pri (PN ce) ;;
  (if z =? ce then set_pri (PN hd) hd else z <- pri (PN ce) ;; set_pri (PN hd) z) ;;;
  b <- nxt ce ;; set_nxt hd b ;;;
  b <- nxt hd ;; f <- pri b ;; set_pri (PN f) hd ;;;
  z <- pri (PN hd) ;; b <- nxt z ;; set_pri b hd.
Lemma adopt_lay a n hd ce h J v w F : wfi n J -> hs h (layout a n ce J ++ (NX hd, v) :: (PR (PN hd), w) :: F) ->
  wp (adopt hd ce) (fun _ h' => exists v w, hs h' (layout a n hd J ++ (NX ce, v) :: (PR (PN ce), w) :: F)) (fun _ => False) h.
Proof.
  intros W H. destruct J as [|(i, g) J].
  - rewrite !layout_nil in *. revert H. generalize (empties a n []). intros E H.
    assert (P : forall c1 c2 c3 c7 c8 : cell, Permutation (([c1; c2; c3] ++ E) ++ c7 :: c8 :: F) (c1 :: c2 :: c3 :: c7 :: c8 :: E ++ F)) by (intros; permc).
    apply (hs_perm (P _ _ _ _ _)) in H. unfold adopt. repeat hstep. exists (PB a n), (PN hd). eapply hs_perm; [symmetry; apply P|].
    eapply hs_perm; [|eassumption]. permc.
  - rewrite !layout_end in *. cbn [links] in H. cbn [links].
    assert (El : forall p, lastn p ((i, g) :: J) = lastn 0 ((i, g) :: J)) by reflexivity.
    rewrite (El ce) in H. rewrite (El hd).
    destruct (idx None ((i, g) :: J)) as [k|] eqn:Ek; [|discriminate].
    assert (Hk : k < n).
    { apply idx_in in Ek. apply in_map_iff in Ek as (it & <- & Hi). unfold wfi in W. rewrite Forall_forall in W. now apply W. }
    assert (Jk : forall q, joint a (Some k) (lastn 0 ((i, g) :: J)) n q = [(NX (lastn 0 ((i, g) :: J)), PB a n); (PR (PB a n), PN q); (PR (PN q), PN (lastn 0 ((i, g) :: J)))]).
    { intros q. unfold joint. cbn [same_bucket]. rewrite (proj2 (Nat.eqb_neq k n)) by lia. reflexivity. }
    rewrite Jk in *. change (joint a None ce i (first_of g)) with [(NX ce, PB a i); (PR (PB a i), PN (first_of g)); (PR (PN (first_of g)), PN ce)] in H.
    change (joint a None hd i (first_of g)) with [(NX hd, PB a i); (PR (PB a i), PN (first_of g)); (PR (PN (first_of g)), PN hd)].
    clear Jk El. revert H. generalize (inner g ++ links a (Some i) (last_of g) J). generalize (empties a n ((i, g) :: J)). generalize (lastn 0 ((i, g) :: J)). generalize (first_of g).
    intros f l E R H.
    assert (P : forall c1 c2 c3 c4 c5 c6 c7 c8 : cell, Permutation (((([c1; c2; c3] ++ R) ++ [c4; c5; c6]) ++ E) ++ c7 :: c8 :: F) (c1 :: c2 :: c3 :: c4 :: c5 :: c6 :: c7 :: c8 :: R ++ E ++ F)) by (intros; permc).
    apply (hs_perm (P _ _ _ _ _ _ _ _)) in H. unfold adopt. repeat hstep. exists (PB a i), (PN l). eapply hs_perm; [symmetry; apply P|].
    eapply hs_perm; [|eassumption]. permc.
Qed.

(** ** Going back *)
Lemma idx_snoc I (i : nat) (g : list node) : idx None (I ++ [(i, g)]) = Some i.
Proof. rewrite idx_app. reflexivity. Qed.
Lemma ins_end i g I l : contig (map fst I ++ i :: l) -> idx None I <> Some i -> ins_front i g I = I ++ [(i, g)].
Proof.
  intros C N. destruct (ins_front_split i g I) as [(I1 & g' & I2 & E & _ & _)|(_ & E)]; auto.
  exfalso. apply N. eapply contig_left; [exact C|]. rewrite E, map_app, in_app_iff. cbn. auto.
Qed.
Lemma idx_same pi i : pi = Some i <-> same_bucket pi i = true.
Proof. destruct (same_bucket_spec pi i); split; auto; easy. Qed.

Section Undo.
Variable V : Type.
Variable L : Layer V.
Variable s : St L.
Variables (hd ce : node) (a n a' n' : nat) (F : list cell).
Variable hk : node -> nat.     (* the hash of an element *)
Definition acc_of (it : item) : nat * node := (hk (last_of (snd it)), last_of (snd it)).
Definition prev_ok (prev : option nat) (main D : list item) : Prop :=
  match D with [] => True | (i, _) :: _ => match prev with Some p => i =? p | None => false end = same_bucket (idx None main) i end.

Lemma n_undo : forall D main J prev t,
  arr t = a -> bc t = n -> wfi n (main ++ D) -> contig (map fst (main ++ D) ++ [n]) -> wfi n' J ->
  Permutation (map snd J) (map snd D) -> (forall i g, In (i, g) D -> position (hk (last_of g)) n = i) ->
  prev_ok prev main D -> hs (hp t) (layout a n hd main ++ layout a' n' ce J ++ F) ->
  wp (n_undo_loop hd L (map acc_of D) prev)
     (fun _ st => exists h' J', st = (set_hp h' t, s) /\ hs h' (layout a n hd (main ++ D) ++ layout a' n' ce J' ++ F))
     (fun _ => False) (t, s).
Proof.
  induction D as [|(i, g) D IH]; intros main J prev t Ea En W C WJ P Hp Pv H; cbn [n_undo_loop map].
  - apply wp_ret. exists (hp t), J. rewrite set_hp_self, app_nil_r. auto.
  - unfold acc_of at 1. cbn [fst snd]. apply wp_get. unfold at_. apply wp_get. rewrite Ea, En, (Hp i g) by now left.
    assert (Hg : exists J1 j J2, J = J1 ++ (j, g) :: J2).
    { assert (X : In g (map snd J)) by (eapply Permutation_in; [symmetry; exact P|now left]).
      apply in_map_iff in X as ((j, g') & E & X). cbn in E. subst g'. apply in_split in X as (J1 & J2 & X). eauto. }
    destruct Hg as (J1 & j & J2 & ->).
    assert (Wi := W). apply wfi_app in Wi as (Wm & Wi). apply wfi_cons in Wi as ((Li & Sg & Ng) & WD).
    assert (H1 : hs (hp t) (layout a' n' ce (J1 ++ (j, g) :: J2) ++ layout a n hd main ++ F)) by (eapply hs_perm; [|exact H]; permc).
    eapply wp_rdhp; [exact (first_by_last_lay _ _ _ _ _ _ _ WJ H1)|].
    eapply wp_hp. eapply wp_conseq; [exact (unlink_range_lay _ _ _ _ _ _ _ WJ H1)| |easy]. cbn beta. intros _ h1 (v & w & H2).
    assert (WJ' : wfi n' (J1 ++ J2)).
    { apply wfi_app in WJ as (A & B). apply wfi_cons in B as (_ & B). apply wfi_app. auto. }
    assert (P' : Permutation (map snd (J1 ++ J2)) (map snd D)).
    { rewrite map_app in *. cbn [map snd] in P. apply Permutation_app_inv with (l3 := []) in P. exact P. }
    assert (H3 : hs h1 (layout a n hd main ++ (loose (first_of g) (last_of g) v w ++ inner g) ++ layout a' n' ce (J1 ++ J2) ++ F)) by (eapply hs_perm; [|exact H2]; permc).
    cbn [prev_ok] in Pv. rewrite Pv.
    assert (C' : contig (map fst main ++ i :: map fst D ++ [n])) by (rewrite map_app in C; cbn [map fst] in C; rewrite <- app_assoc in C; exact C).
    assert (Next : forall h2, hs h2 (layout a n hd (main ++ [(i, g)]) ++ layout a' n' ce (J1 ++ J2) ++ F) ->
      wp (n_undo_loop hd L (map acc_of D) (Some i))
       (fun _ st => exists h' J', st = (set_hp h' t, s) /\ hs h' (layout a n hd (main ++ (i, g) :: D) ++ layout a' n' ce J' ++ F))
       (fun _ => False) (set_hp h2 t, s)).
    { intros h2 H4. eapply wp_conseq; [apply (IH (main ++ [(i, g)]) (J1 ++ J2) (Some i) (set_hp h2 t)); auto| |easy].
      - now rewrite <- app_assoc.
      - now rewrite <- app_assoc.
      - intros i' g' H'. apply Hp. now right.
      - destruct D as [|(i2, g2) D]; [exact I|]. cbn [prev_ok]. rewrite idx_snoc. cbn [same_bucket]. apply Nat.eqb_sym.
      - cbn beta. intros _ st (h' & J' & -> & H5). exists h', J'. rewrite <- app_assoc in H5. split; auto. }
    destruct (same_bucket (idx None main) i) eqn:Sb.
    + apply wp_hp. eapply wp_conseq; [eapply append_range_lay; [exact Wm|apply idx_same; exact Sb|exact Sg|exact H3]| |easy].
      cbn beta. intros _ h2 H4. apply (Next h2 H4).
    + apply wp_hp. eapply wp_conseq; [eapply link_range_lay; [exact Wm|exact Li|exact Sg|exact H3]| |easy].
      cbn beta. intros _ h2 H4. rewrite (@ins_end i g main (map fst D ++ [n]) C') in H4.
      * apply (Next h2 H4).
      * intros X. apply idx_same in X. congruence.
Qed.

Lemma u_undo : forall D main C prev t,
  arr t = a -> bc t = n -> wfi n (main ++ D) -> contig (map fst (main ++ D) ++ [n]) ->
  Forall (fun it : item => length (snd it) = 1) D ->
  map fst C = flat_map fields (elems D) -> (forall i g, In (i, g) D -> position (hk (last_of g)) n = i) ->
  prev_ok prev main D -> hs (hp t) (layout a n hd main ++ C ++ F) ->
  wp (u_undo_loop hd L (map acc_of D) prev)
     (fun _ st => exists h', st = (set_hp h' t, s) /\ hs h' (layout a n hd (main ++ D) ++ F))
     (fun _ => False) (t, s).
Proof.
  induction D as [|(i, g) D IH]; intros main C prev t Ea En W Ct U Ec Hp Pv H; cbn [u_undo_loop map].
  - apply wp_ret. exists (hp t). rewrite set_hp_self, app_nil_r. destruct C; [auto|discriminate].
  - unfold acc_of at 1. cbn [fst snd]. apply wp_get. unfold at_. apply wp_get. rewrite Ea, En, (Hp i g) by now left.
    inversion U as [|? ? U1 U2]; subst. cbn [snd] in U1. destruct g as [|x [|]]; cbn in U1; try lia. cbn [last_of last].
    rewrite elems_cons in Ec. cbn [app flat_map fields] in Ec.
    destruct C as [|(l1, w) [|(l2, v) C]]; try discriminate. cbn [map fst] in Ec. injection Ec as -> -> Ec.
    assert (Wi := W). apply wfi_app in Wi as (Wm & Wi). apply wfi_cons in Wi as ((Li & Sg & Ng) & WD).
    assert (H3 : hs (hp t) (layout (arr t) (bc t) hd main ++ (loose (first_of [x]) (last_of [x]) v w ++ inner [x]) ++ C ++ F)).
    { eapply hs_perm; [|exact H]. cbn [loose inner first_of last_of List.hd last app]. permc. }
    cbn [prev_ok] in Pv. rewrite Pv.
    assert (C' : contig (map fst main ++ i :: map fst D ++ [bc t])) by (rewrite map_app in Ct; cbn [map fst] in Ct; rewrite <- app_assoc in Ct; exact Ct).
    assert (Next : forall h2, hs h2 (layout (arr t) (bc t) hd (main ++ [(i, [x])]) ++ C ++ F) ->
      wp (u_undo_loop hd L (map acc_of D) (Some i))
       (fun _ st => exists h', st = (set_hp h' t, s) /\ hs h' (layout (arr t) (bc t) hd (main ++ (i, [x]) :: D) ++ F))
       (fun _ => False) (set_hp h2 t, s)).
    { intros h2 H4. eapply wp_conseq; [apply (IH (main ++ [(i, [x])]) C (Some i) (set_hp h2 t)); auto| |easy].
      - now rewrite <- app_assoc.
      - now rewrite <- app_assoc.
      - intros i' g' H'. apply Hp. now right.
      - destruct D as [|(i2, g2) D]; [exact I|]. cbn [prev_ok]. rewrite idx_snoc. cbn [same_bucket]. apply Nat.eqb_sym.
      - cbn beta. intros _ st (h' & -> & H5). exists h'. rewrite <- app_assoc in H5. split; auto. }
    destruct (same_bucket (idx None main) i) eqn:Sb.
    + apply wp_hp. rewrite append_append_range. eapply wp_conseq; [eapply (@append_range_lay _ _ _ _ _ i [x]); [exact Wm|apply idx_same; exact Sb|exact Sg|exact H3]| |easy].
      cbn beta. intros _ h2 H4. apply (Next h2 H4).
    + apply wp_hp. rewrite link_link_range. eapply wp_conseq; [eapply (@link_range_lay _ _ _ _ _ i [x]); [exact Wm|exact Li|exact Sg|exact H3]| |easy].
      cbn beta. intros _ h2 H4. rewrite (@ins_end i [x] main (map fst D ++ [bc t]) C') in H4.
      * apply (Next h2 H4).
      * intros X. apply idx_same in X. congruence.
Qed.
End Undo.

(** ** Rehashing *)
Lemma wp_eta {S A} (m : M S A) Q E s : wp (bind m (@ret S A)) Q E s -> wp m Q E s.
Proof. unfold wp, bind. destruct (m s); auto. Qed.
Lemma wp_assoc {S A B C} (m : M S A) (f : A -> M S B) (g : B -> M S C) Q E s :
  wp (bind (bind m f) g) Q E s -> wp (bind m (fun x => bind (f x) g)) Q E s.
Proof. unfold wp, bind. destruct (m s); auto. Qed.
Lemma wp_ift {S A} (c : bool) (m m' : M S A) Q E s : c = true -> wp m Q E s -> wp (if c then m else m') Q E s.
Proof. now intros ->. Qed.
Lemma wp_iff {S A} (c : bool) (m m' : M S A) Q E s : c = false -> wp m' Q E s -> wp (if c then m else m') Q E s.
Proof. now intros ->. Qed.
Section Rehash.
Variable V : Type.
Variable K : Type.
Variable throws : nat -> bool.
Variable pick : list node -> node.
Variable dv : V.
Variable hd : node.
Variable key : V -> K.
Variable eq : K -> K -> bool.
Variable hash : K -> nat.
Variable uniq : bool.
Variable L : Layer V.
Variable S : Spec V.
Variable rep : St L -> AV S -> Prop.
Variable shell : St L -> Prop.
Hypothesis O : OK throws pick dv hd L S rep shell.
Notation OM := (OM L).

Section State.
Variable s : St L.
Notation b := (bget L s).
Notation vl := (val dv b).
Notation hk := (fun y => hash (key (vl y))).
Notation rehashed := (rehashed key hash vl).
Variables (a n a' n' : nat) (ce : node) (F : list cell) (I : list item).
Hypothesis W : wfi n I.
Hypothesis Ct : contig (map fst I ++ [n]).
Hypothesis LV : forall y, In y (elems I) -> live b y.
Hypothesis Hh : ~ In hd (elems I).
Hypothesis Hn' : 0 < n'.
Hypothesis Hp : forall i g, In (i, g) I -> position (hk (last_of g)) n = i.
Hypothesis UQ : uniq = true -> Forall (fun it : item => length (snd it) = 1) I.

Lemma rehashed_cons i g D : g <> [] -> rehashed n' ((i, g) :: D) = ins_front (position (hk (last_of g)) n') g (rehashed n' D).
Proof. intros N. unfold HashSpec.rehashed. cbn [fold_right snd]. f_equal. unfold pos_of. destruct g; [easy|reflexivity]. Qed.
Lemma rehashed_snd D : Permutation (map snd (rehashed n' D)) (map snd D).
Proof.
  unfold HashSpec.rehashed. rewrite (Permutation_map snd (rehash_perm (pos_of key hash vl n') D)), map_map. cbn [snd]. reflexivity.
Qed.
Lemma rehashed_wfi m D : wfi m D -> wfi n' (rehashed n' D).
Proof.
  intros H. unfold wfi in H |- *. rewrite Forall_forall in H |- *. intros (i, g) Hi.
  apply (Permutation_in _ (rehash_perm (pos_of key hash vl n') D)) in Hi. apply in_map_iff in Hi as ((j, g') & E & Hi). cbn [snd] in E.
  injection E as <- <-. destruct (H _ Hi) as (_ & Sg & Ng). cbn [fst snd] in *. split; auto. unfold pos_of. destruct g'; auto.
  apply Nat.mod_upper_bound. lia.
Qed.
Lemma rehashed_one D : Forall (fun it : item => length (snd it) = 1) D -> Forall (fun it : item => length (snd it) = 1) (rehashed n' D).
Proof.
  intros H. rewrite Forall_forall in H |- *. intros (i, g) Hi. apply (in_map snd) in Hi. cbn [snd] in Hi.
  apply (Permutation_in _ (rehashed_snd D)) in Hi. apply in_map_iff in Hi as (it & <- & Hi). exact (H it Hi).
Qed.

Definition gone_wrong (t : hst) (m : nat) (st : ost L) : Prop :=
  exists m' h', blown throws m m' /\ st = (set_hp h' t, adv L m' s) /\ hs h' (layout a n hd I ++ F).
Definition gone_right (t : hst) (m : nat) (st : ost L) : Prop :=
  exists m' h', quiet throws m m' /\ st = (set_hp h' t, adv L m' s) /\
    hs h' (layout a n hd [] ++ layout a' n' ce (rehashed n' I) ++ F).

Definition within_ok (within : bool) (main D : list item) : Prop :=
  match D with [] => True | (i, _) :: _ => within = same_bucket (idx None main) i end.
Lemma undo_ok main D t m within (E : ost L -> Prop) : arr t = a -> bc t = n -> I = main ++ D -> within_ok within main D ->
  hs (hp t) (layout a n hd main ++ layout a' n' ce (rehashed n' D) ++ F) ->
  (forall h', hs h' (layout a n hd I ++ F) -> E (set_hp h' t, adv L m s)) ->
  wp (undo_rehash uniq hd L (map (acc_of hk) D) within ;;; throw : OM nat) (fun _ _ => False) E (t, adv L m s).
Proof.
  intros Ea En EI Wi H HE. apply wp_bind. unfold undo_rehash.
  assert (HE' : forall h' C, hs h' (layout a n hd I ++ C ++ F) -> E (set_hp h' t, adv L m s)).
  { intros h' C Hs. apply HE. eapply hs_r with (C := C). eapply hs_perm; [|exact Hs]. permc. }
  destruct D as [|(i, g) D2] eqn:ED; cbn [map].
  - apply wp_ret, wp_throw. rewrite <- (set_hp_self t). rewrite app_nil_r in EI. subst main. eapply HE'. exact H.
  - unfold acc_of at 1. cbn [snd]. apply wp_get. 
    change (acc_of hk (i, g) :: map (acc_of hk) D2) with (map (acc_of hk) ((i, g) :: D2)).
    assert (Ei : position (hk (last_of g)) (bc t) = i).
    { rewrite En. apply Hp. rewrite EI. apply in_or_app. right. now left. }
    rewrite Ei. rewrite <- ED in *.
    assert (Pv : prev_ok (if within then Some i else None) main D).
    { rewrite ED in Wi |- *. cbn [within_ok prev_ok] in *. destruct within; [rewrite Nat.eqb_refl|]; auto. }
    clear Ei. assert (Hp' : forall i g, In (i, g) D -> position (hk (last_of g)) n = i).
    { intros j g' Hj. apply Hp. rewrite EI. apply in_or_app. now right. }
    assert (W' := W). assert (Ct' := Ct). rewrite EI in W', Ct'.
    assert (Cases : wp ((if uniq then u_undo_loop hd L else n_undo_loop hd L) (map (acc_of hk) D) (if within then Some i else None))
      (fun _ st => exists h' C, st = (set_hp h' t, adv L m s) /\ hs h' (layout a n hd I ++ C ++ F)) (fun _ => False) (t, adv L m s)).
    { destruct uniq eqn:U.
      - assert (UD : Forall (fun it : item => length (snd it) = 1) D).
        { specialize (UQ eq_refl). rewrite EI in UQ. apply Forall_app in UQ as (_ & X). exact X. }
        assert (WD : wfi n' (rehashed n' D)). { apply wfi_app in W' as (_ & X). eapply rehashed_wfi; exact X. }
        assert (H1 : hs (hp t) (layout a' n' ce (rehashed n' D) ++ layout a n hd main ++ F)) by (eapply hs_perm; [|exact H]; permc).
        assert (Pe : Permutation (elems D) (elems (rehashed n' D))) by (symmetry; apply elems_rehashed).
        destruct (@hs_some _ _ _ (flat_map fields (elems D)) H1) as (C & EC & H2).
        + assert (N := layout_nodup _ _ _ WD H1). apply NoDup_app_iff in N as (_ & N & _). apply NoDup_cons_iff in N as (_ & N').
          apply (NoDup_perm (Permutation_sym Pe)) in N'. revert N'. generalize (elems D). induction l as [|x l IH]; intros Nl; cbn; [constructor|].
          inversion Nl as [|? ? N1 N2]; subst.
          assert (X : forall l0, In l0 (flat_map fields l) -> l0 = NX x \/ l0 = PR (PN x) -> False).
          { intros l0 H0 H3. apply in_flat_map in H0 as (y & Hy & H0). cbn in H0. apply N1. destruct H0 as [<-|[<-|[]]], H3 as [E0|E0]; congruence. }
          constructor; [|constructor; auto].
          * intros [E0|E0]; [discriminate|]. eapply X; eauto.
          * intros E0. eapply X; eauto.
        + intros l Hl. apply (@fields_layout a' n' ce _ WD (rehashed_one UD)).
          eapply Permutation_in; [|exact Hl]. now apply Permutation_flat_map.
        + eapply wp_conseq; [eapply u_undo with (hk := hk) (main := main) (C := C) (a := a) (n := n) (F := F); auto| |easy].
          * eapply hs_perm; [|exact H2]. permc.
          * cbn beta. intros _ st (h' & -> & H3). exists h', []. rewrite EI. auto.
      - eapply wp_conseq; [eapply n_undo with (hk := hk) (main := main) (a := a) (n := n) (a' := a') (n' := n') (ce := ce) (J := rehashed n' D); auto| |easy].
        + apply wfi_app in W' as (_ & X). eapply rehashed_wfi; exact X.
        + apply rehashed_snd.
        + exact H.
        + cbn beta. intros _ st (h' & J' & -> & H3). exists h', (layout a' n' ce J'). rewrite EI. auto. }
    (eapply wp_conseq; [exact Cases| |easy]); cbn beta; intros _ st (h' & C & -> & H3); apply wp_throw; eapply HE'; exact H3.
Qed.

Lemma rehash_hash_ok main D t m within Q (k : nat -> OM unit) x : arr t = a -> bc t = n -> I = main ++ D -> within_ok within main D ->
  hs (hp t) (layout a n hd main ++ layout a' n' ce (rehashed n' D) ++ F) -> live b x ->
  (quiet throws m (Datatypes.S m) -> wp (k (hk x)) Q (gone_wrong t m) (t, adv L (Datatypes.S m) s)) ->
  wp (bind (rehash_hash throws key hash uniq hd L x (map (acc_of hk) D) within) k) Q (gone_wrong t m) (t, adv L m s).
Proof.
  intros Ea En EI Wi H Lx Hk. apply wp_bind. unfold rehash_hash. eapply wp_oval; [exact O|exact Lx|]. apply wp_try. unfold hcall.
  eapply wp_conseq with (Q := fun r st => r = hk x /\ throws m = false /\ st = (t, adv L (Datatypes.S m) s))
    (E := fun st => throws m = true /\ st = (t, adv L (Datatypes.S m) s)).
  - apply wp_eta. eapply wp_ucall; [exact O| |]; intros T; auto. apply wp_ret. auto.
  - cbn beta. intros r st (-> & T & ->). apply Hk. now apply quiet_S.
  - cbn beta. intros st (T & ->). eapply wp_conseq; [eapply undo_ok with (E := gone_wrong t m); eauto| |].
    + intros h' H'. exists (Datatypes.S m), h'. split; [now apply blown_S|auto].
    + easy.
    + auto.
Qed.

Lemma lastn_snoc p J i g : lastn p (J ++ [(i, g)]) = last_of g.
Proof. revert p. induction J as [|(j, g') J IH]; intros p; [reflexivity|]. cbn [app]. now rewrite lastn_cons. Qed.
Lemma gone_wrong_at t t' m m' : (exists h, t' = set_hp h t) -> quiet throws m m' -> forall st, gone_wrong t' m' st -> gone_wrong t m st.
Proof.
  intros (h & ->) q st (m2 & h' & B & -> & H). exists m2, h'. split; [eapply blown_trans; eauto|auto].
Qed.
Lemma gone_right_at t t' m m' : (exists h, t' = set_hp h t) -> quiet throws m m' -> forall st, gone_right t' m' st -> gone_right t m st.
Proof.
  intros (h & ->) q st (m2 & h' & B & -> & H). exists m2, h'. split; [eapply quiet_trans; eauto|auto].
Qed.
Lemma u_rehash_ok : uniq = true -> forall main D t m within, arr t = a -> bc t = n -> I = main ++ D -> within_ok within main D ->
  hs (hp t) (layout a n hd main ++ layout a' n' ce (rehashed n' D) ++ F) ->
  wp (u_rehash_loop throws key hash uniq hd L (length main) a' n' ce (map (acc_of hk) D) within)
     (fun _ => gone_right t m) (gone_wrong t m) (t, adv L m s).
Proof.
  intros Uq. induction main as [|(i, g) main IH] using rev_ind; intros D t m within Ea En EI Wi H.
  - apply wp_ret. cbn [app] in EI. subst D. exists m, (hp t). split; [apply quiet_refl|]. rewrite set_hp_self. auto.
  - rewrite app_length, Nat.add_comm. cbn [length Nat.add u_rehash_loop].
    assert (W0 := W). rewrite EI in W0. apply wfi_app in W0 as (Wm & WD). assert (Wm' := Wm). apply wfi_app in Wm' as (Wm0 & Wg). apply wfi_cons in Wg as ((Li & Sg & Ng) & _).
    assert (U0 := UQ Uq). rewrite EI in U0. apply Forall_app in U0 as (U0 & _). apply Forall_app in U0 as (_ & U0).
    apply Forall_inv in U0. cbn [snd] in U0. destruct g as [|x [|]]; cbn in U0; try lia. clear U0.
    eapply wp_rdhp; [eapply last_lay; exact H|]. rewrite lastn_snoc. change (last_of [x]) with x.
    assert (Lx : live b x). { apply LV. rewrite EI, !elems_app, !in_app_iff. left. right. cbn. auto. }
    eapply rehash_hash_ok; [exact Ea|exact En|exact EI|exact Wi|exact H|exact Lx|]. intros q.
    apply wp_hp. eapply wp_conseq; [eapply u_unlink_last_lay; [exact Wm|exact H]| |easy]. cbn beta. intros e h1 (-> & v & w & H1).
    apply wp_hp. rewrite link_link_range. cbn [hp set_hp].
    eapply wp_conseq; [eapply (@link_range_lay a' n' ce) with (i := position (hk x) n') (g := [x]) (I := rehashed n' D) (v := v) (w := w) (F := layout a n hd main ++ F)| |easy].
    + eapply rehashed_wfi. exact WD.
    + apply Nat.mod_upper_bound. lia.
    + exact Sg.
    + cbn [loose inner first_of last_of List.hd last app]. eapply hs_perm; [|exact H1]. unfold loose. permc.
    + cbn beta. intros _ h2 H2. rewrite Bool.negb_involutive.
      change ((hk x, x) :: map (acc_of hk) D) with (map (acc_of hk) ((i, [x]) :: D)).
      eapply wp_conseq; [apply (IH ((i, [x]) :: D) (set_hp h2 (set_hp h1 t)) (Datatypes.S m) (same_bucket (idx None main) i)); auto| |].
      * rewrite EI, <- app_assoc. reflexivity.
      * reflexivity.
      * cbn [hp set_hp]. rewrite rehashed_cons by easy. change (last_of [x]) with x. eapply hs_perm; [|exact H2]. permc.
      * intros ? st. apply gone_right_at; auto. exists h2. reflexivity.
      * apply gone_wrong_at; auto. exists h2. reflexivity.
Qed.
Lemma n_rehash_ok : forall main D t m within fuel, arr t = a -> bc t = n -> I = main ++ D -> within_ok within main D ->
  hs (hp t) (layout a n hd main ++ layout a' n' ce (rehashed n' D) ++ F) -> length main < fuel ->
  wp (n_rehash_loop throws key hash uniq hd L fuel a' n' ce (map (acc_of hk) D) within)
     (fun _ => gone_right t m) (gone_wrong t m) (t, adv L m s).
Proof.
  induction main as [|(i, g) main IH] using rev_ind; intros D t m within fuel Ea En EI Wi H Hf; (destruct fuel as [|fuel]; [lia|]); cbn [n_rehash_loop].
  - eapply wp_rdhp; [eapply last_lay; exact H|]. cbn [lastn]. rewrite Nat.eqb_refl.
    apply wp_ret. cbn [app] in EI. subst D. exists m, (hp t). split; [apply quiet_refl|]. rewrite set_hp_self. auto.
  - assert (W0 := W). rewrite EI in W0. apply wfi_app in W0 as (Wm & WD). assert (Wm' := Wm). apply wfi_app in Wm' as (Wm0 & Wg). apply wfi_cons in Wg as ((Li & Sg & Ng) & _).
    eapply wp_rdhp; [eapply last_lay; exact H|]. rewrite lastn_snoc.
    assert (Ig : In (last_of g) (elems I)).
    { rewrite EI, !elems_app, !in_app_iff. left. right. rewrite elems_cons. apply in_or_app. left. apply last_in. now apply shaped_ne. }
    rewrite (proj2 (Nat.eqb_neq (last_of g) hd)) by (intros E; apply Hh; now rewrite <- E).
    eapply rehash_hash_ok; [exact Ea|exact En|exact EI|exact Wi|exact H|now apply LV|]. intros q.
    apply wp_hp. eapply wp_conseq; [eapply unlink_last_group_lay; [exact Wm|exact H]| |easy]. cbn beta. intros e h1 (-> & v & w & H1). cbn [fst snd].
    apply wp_hp. cbn [hp set_hp].
    eapply wp_conseq; [eapply (@link_range_lay a' n' ce) with (i := position (hk (last_of g)) n') (g := g) (I := rehashed n' D) (v := v) (w := w) (F := layout a n hd main ++ F)| |easy].
    + eapply rehashed_wfi. exact WD.
    + apply Nat.mod_upper_bound. lia.
    + exact Sg.
    + eapply hs_perm; [|exact H1]. permc.
    + cbn beta. intros _ h2 H2. rewrite Bool.negb_involutive.
      change ((hk (last_of g), last_of g) :: map (acc_of hk) D) with (map (acc_of hk) ((i, g) :: D)).
      eapply wp_conseq; [apply (IH ((i, g) :: D) (set_hp h2 (set_hp h1 t)) (Datatypes.S m) (same_bucket (idx None main) i) fuel); auto| |].
      * rewrite EI, <- app_assoc. reflexivity.
      * reflexivity.
      * cbn [hp set_hp]. rewrite rehashed_cons by now apply shaped_ne. eapply hs_perm; [|exact H2]. permc.
      * rewrite app_length in Hf. cbn in Hf. lia.
      * intros ? st. apply gone_right_at; auto. exists h2. reflexivity.
      * apply gone_wrong_at; auto. exists h2. reflexivity.
Qed.
End State.

(** What an arrangement in order says about its segments *)
Lemma hok_items v0 n I : hok key eq hash uniq v0 (n, I) ->
  (forall i g y, In (i, g) I -> In y g -> position (hash (key (v0 y))) n = i) /\
  (uniq = true -> Forall (fun it : item => length (snd it) = 1) I).
Proof.
  intros (G & EI & C & _). cbn [fst snd] in *. subst I. rewrite Forall_forall in C. split.
  - intros i g y H Y. unfold flat in H. apply in_flat_map in H as (c & Hc & H). destruct (C c Hc) as (_ & P & _).
    assert (Ei := resplit_fst _ _ _ H). cbn in Ei. subst i. apply P. now apply (resplit_in _ _ _ H).
  - intros U. apply Forall_forall. intros it H. unfold flat in H. apply in_flat_map in H as (c & Hc & H).
    destruct (C c Hc) as (_ & _ & _ & Q). specialize (Q U). destruct c as (i, g). cbn [fst snd] in *.
    destruct g as [|x [|]]; cbn in Q; try lia. cbn in H. destruct H as [<-|[]]. reflexivity.
Qed.
Lemma sizes_pos : forallb (N.ltb 0) sizes = true.
Proof. vm_compute. reflexivity. Qed.
Lemma bcount_pos m : 0 < bcount m.
Proof.
  unfold bcount, bucket_size_for. assert (H := sizes_pos). rewrite forallb_forall in H.
  assert (P : (0 < nth (size_index (N.of_nat m)) sizes 53)%N).
  { destruct (nth_in_or_default (size_index (N.of_nat m)) sizes 53%N) as [J|J].
    - apply N.ltb_lt. auto.
    - rewrite J. reflexivity. }
  lia.
Qed.
(** a number of buckets taken from the table *)
Definition tabled (n : nat) : Prop := bcount n = n.
Lemma tabled_pos n : tabled n -> 0 < n.
Proof. intros <-. apply bcount_pos. Qed.
Lemma sizes_index : forallb (fun b => size_index (nth b sizes 53%N) =? b) (seq 0 (length sizes)) = true.
Proof. vm_compute. reflexivity. Qed.
Lemma size_index_lt n : size_index n < length sizes.
Proof.
  assert (X : forall l, lower_bound l n <= length l).
  { induction l as [|a l IH]; cbn; [lia|]. destruct (a <? n)%N; lia. }
  specialize (X sizes). unfold size_index. assert (0 < length sizes) by (cbn; lia).
  destruct (Nat.eqb_spec (lower_bound sizes n) (length sizes)); lia.
Qed.
Lemma tabled_bcount m : tabled (bcount m).
Proof.
  unfold tabled, bcount. rewrite N2Nat.id. f_equal. unfold bucket_size_for. f_equal.
  assert (H := sizes_index). rewrite forallb_forall in H. apply Nat.eqb_eq. apply H.
  apply in_seq. assert (X := size_index_lt (N.of_nat m)). lia.
Qed.

Hypothesis pick_ok : forall l, ~ In (pick l) (null :: l).
Lemma of_node_inj x y l : of_node x l -> of_node y l -> x = y.
Proof. unfold of_node. intros [-> | ->] [E|E]; congruence. Qed.
Lemma of_array_inj a b l : of_array a l -> of_array b l -> a = b.
Proof. unfold of_array. intros (i & ->) (j & E). congruence. Qed.
Lemma of_array_node a x l : of_array a l -> of_node x l -> False.
Proof. unfold of_array, of_node. intros (i & ->) [E|E]; congruence. Qed.

Theorem unchecked_rehash_ok w t s m I : let b := bget L s in let vl := val dv b in
  wfi (bc t) I -> hs (hp t) (layout (arr t) (bc t) hd I) -> hok key eq hash uniq vl (bc t, I) ->
  (forall y, In y (elems I) -> live b y) -> look (mem b) hd = Some None -> length (elems I) = cget L s ->
  wp (unchecked_rehash throws pick key hash uniq hd L w)
     (fun _ st => exists m' h', quiet throws m m' /\
        st = (mkH h' (Datatypes.S (arr t)) (bcount w) (load (pol t) (bcount w)) (pol t), adv L m' s) /\
        hs h' (layout (Datatypes.S (arr t)) (bcount w) hd (rehashed key hash vl (bcount w) I)))
     (fun st => exists m' h', blown throws m m' /\ st = (set_hp h' t, adv L m' s) /\ hs h' (layout (arr t) (bc t) hd I))
     (t, adv L m s).
Proof.
  intros b vl W H Hok LV Hm Sz. unfold unchecked_rehash.
  assert (Hh : ~ In hd (elems I)).
  { intros X. apply LV in X. unfold live in X. rewrite Hm in X. destruct X as (v & X). discriminate. }
  set (ce := pick (map fst (mem b))). assert (Hce := @pick_ok (map fst (mem b))). fold ce in Hce.
  assert (Nce : ~ In ce (hd :: elems I)).
  { intros X. apply Hce. right. destruct X as [<-|X].
    - apply look_in in Hm. exact (in_map fst _ _ Hm).
    - apply LV in X as (v & X). apply look_in in X. exact (in_map fst _ _ X). }
  apply wp_bind. unfold stack_node. apply wp_sup. apply wp_lens. unfold wp at 1.
  assert (Em : mem (bget L (adv L m s)) = mem b) by (eapply adv_mem; exact O).
  rewrite Em, (o_gs O). fold ce. clear Em.
  eapply wp_ucall; [exact O| |]; intros T.
  { exists (Datatypes.S m), (hp t). split; [now apply blown_S|]. rewrite set_hp_self. auto. }
  apply wp_get. set (a' := Datatypes.S (arr t)). set (n' := bcount w). assert (Hn' : 0 < n') by apply bcount_pos.
  clearbody n'.
  apply wp_hp. unfold wp at 1.
  assert (H1 : hs (new_array a' n' ce (hp t)) (layout (arr t) (bc t) hd I ++ layout a' n' ce [] ++ [])).
  { eapply hs_perm; [|apply new_array_lay; [exact H|]].
    - rewrite app_nil_r. apply Permutation_app_comm.
    - intros c Hc. apply loc_of_layout in Hc as [Hc|(x & X & Hc)]; auto.
      + split; intros Y.
        * assert (E := of_array_inj Hc Y). unfold a' in E. lia.
        * exact (of_array_node Hc Y).
      + split; intros Y.
        * exact (of_array_node Y Hc).
        * rewrite (of_node_inj Hc Y) in X. contradiction. }
  set (t1 := set_hp (new_array a' n' ce (hp t)) t).
  assert (Ct : contig (map fst I ++ [bc t])) by (eapply layout_contig; rewrite app_nil_r; exact H).
  destruct (hok_items Hok) as (Hp0 & UQ).
  assert (Hp : forall i g, In (i, g) I -> position (hash (key (vl (last_of g)))) (bc t) = i).
  { intros i g Hi. apply (Hp0 i g); auto. apply last_in. unfold wfi in W. rewrite Forall_forall in W.
    destruct (W _ Hi) as (_ & Sg & _). now apply shaped_ne. }
  set (J := rehashed key hash vl n' I).
  assert (WJ : wfi n' J) by (eapply rehashed_wfi; eauto).
  assert (EJ : forall x, In x (elems J) -> In x (elems I)) by (intros x X; eapply Permutation_in; [exact (elems_rehashed key hash vl n' I)|exact X]).
  apply wp_try.
  assert (Body : wp (sz <- supM (size L) ;;
     (if sz =? 0 then ret tt
      else ucall throws L tt ;;; ucall throws L tt ;;;
           if uniq then u_rehash_loop throws key hash uniq hd L sz a' n' ce [] false
           else f <- bound L ;; n_rehash_loop throws key hash uniq hd L f a' n' ce [] false))
     (fun _ => gone_right s (arr t) (bc t) a' n' ce [] I t1 m) (gone_wrong s (arr t) (bc t) [] I t1 m) (t1, adv L (Datatypes.S m) s)).
  { eapply wp_size; [exact O|]. destruct (Nat.eqb_spec (cget L s) 0) as [Ez|Ez].
    - apply wp_ret. assert (I = []) as ->.
      { rewrite Ez in Sz. destruct I as [|(i, g) I']; auto. apply wfi_cons in W as ((_ & Sg & _) & _). rewrite elems_cons, app_length in Sz.
        apply shaped_ne in Sg. destruct g; cbn in *; easy || lia. }
      exists (Datatypes.S m), (hp t1). split; [now apply quiet_S|]. rewrite set_hp_self. split; auto.
    - eapply wp_ucall; [exact O| |]; intros T1.
      { exists (Datatypes.S (Datatypes.S m)), (hp t1). split; [eapply blown_trans; [apply quiet_S; exact T|now apply blown_S]|].
        rewrite set_hp_self. split; auto. eapply hs_l with (D := layout a' n' ce []). rewrite !app_nil_r in *. exact H1. }
      eapply wp_ucall; [exact O| |]; intros T2.
      { exists (Datatypes.S (Datatypes.S (Datatypes.S m))), (hp t1).
        split; [eapply blown_trans; [apply quiet_S; exact T|eapply blown_trans; [apply quiet_S; exact T1|now apply blown_S]]|].
        rewrite set_hp_self. split; auto. eapply hs_l with (D := layout a' n' ce []). rewrite !app_nil_r in *. exact H1. }
      assert (q : quiet throws m (Datatypes.S (Datatypes.S (Datatypes.S m)))).
      { eapply quiet_trans; [apply quiet_S; exact T|]. eapply quiet_trans; [apply quiet_S; exact T1|]. now apply quiet_S. }
      assert (ER : I = I ++ []) by now rewrite app_nil_r.
      assert (X : exists h, t1 = set_hp h t1) by (exists (hp t1); now rewrite set_hp_self).
      destruct (bool_dec uniq true) as [U|U].
      + assert (El : cget L s = length I).
        { rewrite <- Sz. specialize (UQ U). clear - UQ. induction I as [|(i, g) I IH]; [reflexivity|].
          inversion UQ as [|? ? U1 U2]; subst. rewrite elems_cons, app_length. cbn [length snd] in *. rewrite U1, IH by auto. reflexivity. }
        rewrite El.
        eapply wp_conseq; [apply wp_ift; [exact U|];
          eapply u_rehash_ok with (main := I) (D := []) (a := arr t) (n := bc t) (F := []); eauto; exact Logic.I| |].
        * intros ? st. apply gone_right_at; auto.
        * apply gone_wrong_at; auto.
      + apply Bool.not_true_is_false in U.
        eapply wp_conseq; [apply wp_iff; [exact U|]; eapply wp_bound; [exact O|];
          eapply n_rehash_ok with (main := I) (D := []) (a := arr t) (n := bc t) (F := []); eauto; [exact Logic.I|]| |].
        * assert (Hl : length I <= length (elems I)) by (refine (elems_ge L t s I _ W); lia). lia.
        * intros ? st. apply gone_right_at; auto.
        * apply gone_wrong_at; auto. }
  eapply (wp_assoc _ (fun sz => if sz =? 0 then ret tt
      else ucall throws L tt ;;; ucall throws L tt ;;;
           if uniq then u_rehash_loop throws key hash uniq hd L sz a' n' ce [] false
           else f <- bound L ;; n_rehash_loop throws key hash uniq hd L f a' n' ce [] false) (fun _ => take_over hd L a' n' ce)).
  apply wp_bind. eapply wp_conseq; [exact Body| |]; clear Body.
  - intros _ st (m' & h' & q & -> & H2). unfold take_over. apply wp_hp.
    assert (H3 : hs h' (layout a' n' ce J ++ (NX hd, PB (arr t) (bc t)) :: (PR (PN hd), PN hd) :: (PR (PB (arr t) (bc t)), PN hd) :: empties (arr t) (bc t) [])).
    { change (rehashed key hash (val dv (bget L s)) n' I) with J in H2. eapply hs_perm; [|exact H2]. rewrite layout_nil. permc. }
    eapply wp_conseq; [eapply adopt_lay; [exact WJ|exact H3]| |easy]. cbn beta. intros _ h2 (v & w0 & H4). apply hs_l in H4.
    apply wp_own. unfold wp. exists m', (drop_node ce (free_array (arr t) h2)). split; auto. split; [reflexivity|].
    apply drop_node_lay; [apply free_array_lay; auto|].
    + intros c Hc Y. apply loc_of_layout in Hc as [Hc|(x & X & Hc)]; auto.
      * assert (E := of_array_inj Hc Y). unfold a' in E. lia.
      * exact (of_array_node Y Hc).
    + intros c Hc Y. apply loc_of_layout in Hc as [Hc|(x & X & Hc)]; auto.
      * exact (of_array_node Hc Y).
      * rewrite (of_node_inj Hc Y) in X. apply Nce. destruct X as [X|X]; [now left|right; auto].
  - intros st (m' & h' & B & -> & H2). apply wp_hp. unfold wp at 1. apply wp_throw.
    exists m', (drop_node ce (free_array a' h')). split; auto. split; [reflexivity|]. rewrite app_nil_r in H2.
    apply drop_node_lay; [apply free_array_lay; auto|].
    + intros c Hc Y. apply loc_of_layout in Hc as [Hc|(x & X & Hc)]; auto.
      * assert (E := of_array_inj Hc Y). unfold a' in E. lia.
      * exact (of_array_node Y Hc).
    + intros c Hc Y. apply loc_of_layout in Hc as [Hc|(x & X & Hc)]; auto.
      * exact (of_array_node Hc Y).
      * rewrite (of_node_inj Hc Y) in X. contradiction.
Qed.
End Rehash.
