(** The node algorithms of hashed indices on whole lists of segments: linking and unlinking. *)
From Verif Require Import Prelude Layer LayerBase HashModel HashHeap HashAlg HashLink HashLay.
Set Implicit Arguments.

(** the segments of a class of equivalent elements *)
Definition split (l : list node) : list (list node) :=
  if length l <=? 2 then map (fun y => [y]) l else [l].
Definition resplit (i : nat) (l : list node) : list item := map (pair i) (split l).

Section Ops.
Variables (a n : nat) (hd : node).
Notation layout := (layout a n hd).

Lemma lay_rctx I1 i g I2 F h x :
  wfi n (I1 ++ (i, g) :: I2) -> hs h (layout (I1 ++ (i, g) :: I2) ++ F) -> In x g -> i = nidx n I2 ->
  rctx (layout (I1 ++ (i, g) :: I2) ++ F) (nnode hd I2) x.
Proof.
  intros W H X Ei. assert (N := layout_nodup _ _ _ W H). apply NoDup_app_iff in N as (_ & N & _).
  rewrite elems_app in N. cbn [elems flat_map snd] in N. fold (elems I2) in N.
  apply wfi_app in W as (W1 & W2). apply wfi_cons in W2 as ((Li & Sg & Ng) & W2).
  assert (Hd : hd <> x). { inversion N as [|? ? N1 _]; subst. intros ->. apply N1. rewrite !in_app_iff. auto. }
  assert (N2 : NoDup (g ++ elems I2)) by (inversion N as [|? ? _ N2]; subst; now apply NoDup_app_iff in N2).
  destruct I2 as [|(j, g') I3]; cbn [nidx nnode] in *; [lia|]. subst j. apply wfi_cons in W2 as ((Lj & Sj & Nj) & W3).
  assert (G : forall u, In u g' -> u <> x).
  { intros u U E. refine (nd_neq _ _ N2 X _ (eq_sym E)). cbn. apply in_or_app. auto. }
  assert (G3 : forall u, In u (hd :: elems I3) -> u <> x).
  { intros u [<-|U] E; [auto|]. refine (nd_neq _ _ N2 X _ (eq_sym E)). cbn. apply in_or_app. auto. }
  rewrite (layout_mid a n hd I1 i g ((i, g') :: I3)). cbn [rest]. rewrite links_next.
  destruct (shaped_cases Sj) as [(y & ->)|(f & s & m & l & ->)].
  - cbn [first_of last_of List.hd last].
    destruct (in_joint_l a (Some i) y (nidx n I3) (nnode hd I3)) as (v & V & Ve). exists v. split.
    + rewrite !in_app_iff. auto 10.
    + destruct Ve as [->| ->]; [|congruence]. intros E. injection E as E. eapply G3; [|exact E]. eapply nnode_in; eauto.
  - exists (PN s). rewrite inner_grp, grp_first. split.
    + rewrite !in_app_iff. cbn [In]. auto 10.
    + intros E. injection E as E. apply (G s); auto. cbn. auto.
Qed.

Lemma resplit_grp i f s m l : resplit i (f :: s :: m ++ [l]) = [(i, f :: s :: m ++ [l])].
Proof.
  unfold resplit, split. destruct (Nat.leb_spec (length (f :: s :: m ++ [l])) 2) as [L|_]; [|reflexivity].
  cbn [length] in L. rewrite app_length in L. cbn in L. lia.
Qed.
Lemma snoc_cases (g : list node) : g <> [] -> exists m l, g = m ++ [l].
Proof. intros H. destruct (exists_last H) as (m & l & ->). eauto. Qed.

Theorem n_unlink_lay tr h I1 i g1 x g2 I2 F :
  let I := I1 ++ (i, g1 ++ x :: g2) :: I2 in
  wfi n I -> hs h (layout I ++ F) ->
  wp (n_unlink tr x)
     (fun _ st => exists v w, hs (fst st) (layout (I1 ++ resplit i (g1 ++ g2) ++ I2) ++ loose x x v w ++ F))
     (fun _ => False) (h, ([], [])).
Proof.
  intros I W H. subst I. assert (Ct := layout_contig _ _ _ _ _ H).
  assert (Cc := fun E => contig_cond n I1 i (g1 ++ x :: g2) I2 Ct E).
  assert (Lc := fun y => @lay_lctx a n hd I1 i (g1 ++ x :: g2) I2 F h y W H).
  assert (Rc := fun y => @lay_rctx I1 i (g1 ++ x :: g2) I2 F h y W H).
  assert (Nd := layout_nodup _ _ _ W H).
  apply wfi_app in W as (W1 & W2). apply wfi_cons in W2 as ((Li & Sg & Ng) & W2).
  assert (Xl : g2 <> [] -> x <> last_of (g1 ++ x :: g2)).
  { intros N2 E. destruct (snoc_cases N2) as (m & l & ->). unfold last_of in E.
    rewrite app_comm_cons, app_assoc, last_last in E. subst l. apply NoDup_app_iff in Nd as (_ & Nd & _).
    rewrite elems_app in Nd. cbn [elems flat_map snd] in Nd. inversion Nd as [|? ? _ Nd1]; subst.
    apply NoDup_app_iff in Nd1 as (_ & Nd1 & _). apply NoDup_app_iff in Nd1 as (Nd1 & _).
    apply NoDup_app_iff in Nd1 as (_ & Nd1 & _). inversion Nd1 as [|? ? Nd2 _]; subst. apply Nd2. apply in_or_app. right. now left. }
  clear Nd. set (FR := links a None hd I1 ++ rest a n hd I2 ++ empties a n (I1 ++ (i, []) :: I2) ++ F).
  assert (P := lay_perm0 a n hd I1 I2 i F (g1 ++ x :: g2)). fold FR in P.
  apply (hs_perm P) in H. assert (Lc' := fun y A B => lctx_perm P (Lc y A B)). assert (Rc' := fun y A B => rctx_perm P (Rc y A B)).
  clear Lc Rc. rename Lc' into Lc, Rc' into Rc.
  assert (P2 := fun f l X => lay_perm2 a n hd I1 I2 i F f l X). fold FR in P2.
  assert (P1 := fun g X => lay_perm a n hd I1 I2 i F g X). fold FR in P1.
  assert (P0 := fun X => @lay_perm_rem a n hd I1 I2 i F (g1 ++ x :: g2) X Ct Li). fold FR in P0.
  clear P.
  assert (Xg : In x (g1 ++ x :: g2)) by (apply in_or_app; right; now left).
  destruct g1 as [|f g1].
  - destruct g2 as [|s g2].
    + cbn [app first_of last_of List.hd last inner] in *.
      eapply wp_conseq; [eapply n_unlink_one; [exact Cc|exact H]| |easy]. cbn beta. intros _ st (v & w & Hs). exists v, w.
      eapply hs_perm; [symmetry; apply P0|exact Hs].
    + destruct g2 as [|t g2]; [destruct Sg as [E|E]; cbn in E; lia|]. 
      destruct (@snoc_cases (t :: g2)) as (m & l & E); [easy|]. rewrite E in *. cbn [app] in *. clear t g2 E.
      rewrite grp_last in *. rewrite grp_first in *. destruct m as [|t m].
      * eapply wp_conseq; [eapply n_unlink_first3; exact H| |easy]. cbn beta. intros _ st (v & w & Hs). exists v, w.
        cbn [app]. change (resplit i [s; l]) with [(i, [s]); (i, [l])].
        eapply hs_perm; [symmetry; apply P2|]. eapply hs_perm; [|exact Hs]. unfold loose. cbn [app]. permc.
      * eapply wp_conseq; [eapply n_unlink_first; exact H| |easy]. cbn beta. intros _ st (v & w & Hs). exists v, w.
        cbn [app]. rewrite resplit_grp. cbn [app]. eapply hs_perm; [symmetry; apply P1|]. rewrite grp_first, grp_last.
        eapply hs_perm; [|exact Hs]. unfold loose. cbn [app]. permc.
  - destruct g2 as [|t g2].
    + rewrite app_nil_r. destruct g1 as [|s g1]; [destruct Sg as [E|E]; cbn in E; lia|]. cbn [app] in *.
      rewrite grp_last, grp_first in *. induction g1 as [|y m _] using rev_ind.
      * eapply wp_conseq; [eapply n_unlink_last3; [exact H|apply Rc; auto]| |easy]. cbn beta. intros _ st (v & w & Hs). exists v, w.
        change (resplit i [f; s]) with [(i, [f]); (i, [s])].
        eapply hs_perm; [symmetry; apply P2|exact Hs].
      * eapply wp_conseq; [eapply n_unlink_last_; exact H| |easy]. cbn beta. intros _ st (v & w & Hs). exists v, w.
        rewrite resplit_grp. cbn [app]. eapply hs_perm; [symmetry; apply P1|]. rewrite grp_first, grp_last. exact Hs.
    + destruct (@snoc_cases (t :: g2)) as (m & l & E); [easy|]. rewrite E in *. clear t g2 E. destruct g1 as [|s m1].
      * cbn [app] in *. rewrite grp_last, grp_first in *. destruct m as [|t m].
        -- cbn [app] in *. eapply wp_conseq; [eapply n_unlink_second3; [exact H|apply Lc; auto; apply Xl; easy]| |easy]. cbn beta. intros _ st (v & w & Hs). exists v, w.
           change (resplit i [f; l]) with [(i, [f]); (i, [l])].
           eapply hs_perm; [symmetry; apply P2|exact Hs].
        -- assert (H' : hs h (inner (f :: x :: t :: m ++ [l]) ++ joint a (Some i) l (nidx n I2) (nnode hd I2) ++
               joint a (idx None I1) (lastn hd I1) i f ++ FR)) by (eapply hs_perm; [|exact H]; cbn [app]; permc).
           eapply wp_conseq; [eapply n_unlink_second; exact H'| |easy]. cbn beta. intros _ st (v & w & Hs). exists v, w.
           cbn [app]. rewrite resplit_grp. cbn [app]. eapply hs_perm; [symmetry; apply P1|]. rewrite grp_first, grp_last.
           eapply hs_perm; [|exact Hs]. unfold loose. permc.
      * assert (Eg : (f :: s :: m1) ++ x :: m ++ [l] = f :: s :: (m1 ++ x :: m) ++ [l]) by (cbn; now rewrite <- app_assoc).
        rewrite Eg in *. rewrite grp_last, grp_first in *. destruct m as [|y m2].
        -- eapply wp_conseq; [eapply n_unlink_penult; [exact H|apply Lc; auto; apply Xl; easy]| |easy]. cbn beta. intros _ st (v & w & Hs). exists v, w.
           cbn [app]. rewrite resplit_grp. cbn [app]. eapply hs_perm; [symmetry; apply P1|]. rewrite grp_first, grp_last.
           eapply hs_perm; [|exact Hs]. unfold loose. permc.
        -- assert (H' : hs h (inner (f :: s :: (m1 ++ x :: y :: m2) ++ [l]) ++ joint a (idx None I1) (lastn hd I1) i f ++
               joint a (Some i) l (nidx n I2) (nnode hd I2) ++ FR)) by (eapply hs_perm; [|exact H]; permc).
           eapply wp_conseq; [eapply n_unlink_middle; exact H'| |easy]. cbn beta. intros _ st (v & w & Hs). exists v, w.
           replace ((f :: s :: m1) ++ (y :: m2) ++ [l]) with (f :: s :: (m1 ++ y :: m2) ++ [l]) by (cbn; now rewrite <- app_assoc).
           rewrite resplit_grp. cbn [app]. eapply hs_perm; [symmetry; apply P1|]. rewrite grp_first, grp_last.
           eapply hs_perm; [|exact Hs]. unfold loose. permc.
Qed.
Theorem u_unlink_lay tr h I1 i x I2 F :
  let I := I1 ++ (i, [x]) :: I2 in
  wfi n I -> hs h (layout I ++ F) ->
  wp (u_unlink tr x)
     (fun _ st => exists v w, hs (fst st) (layout (I1 ++ I2) ++ loose x x v w ++ F))
     (fun _ => False) (h, ([], [])).
Proof.
  intros I W H. subst I. assert (Ct := layout_contig _ _ _ _ _ H).
  assert (Cc := fun E => contig_cond n I1 i [x] I2 Ct E).
  apply wfi_app in W as (W1 & W2). apply wfi_cons in W2 as ((Li & Sg & Ng) & W2).
  apply (hs_perm (lay_perm0 a n hd I1 I2 i F [x])) in H. cbn [first_of last_of List.hd last inner app] in *.
  eapply wp_conseq; [eapply u_unlink_local; [exact Cc|exact H]| |easy]. cbn beta. intros _ st (v & w & Hs). exists v, w.
  eapply hs_perm; [symmetry; apply (@lay_perm_rem a n hd I1 I2 i F [x] (loose x x v w) Ct Li)|exact Hs].
Qed.

(** ** Linking *)
Fixpoint ins_front (i : nat) (g : list node) (I : list item) : list item :=
  match I with
  | [] => [(i, g)]
  | (j, g') :: r => if i =? j then (i, g) :: (j, g') :: r else (j, g') :: ins_front i g r
  end.
Lemma ins_front_split i g I :
  (exists I1 g' I2, I = I1 ++ (i, g') :: I2 /\ ~ In i (map fst I1) /\ ins_front i g I = I1 ++ (i, g) :: (i, g') :: I2) \/
  (~ In i (map fst I) /\ ins_front i g I = I ++ [(i, g)]).
Proof.
  induction I as [|(j, g') I IH]; [right; auto|]. cbn [ins_front map fst In]. destruct (Nat.eqb_spec i j) as [->|Ne].
  - left. exists [], g', I. auto.
  - destruct IH as [(I1 & g2 & I2 & -> & N & ->)|(N & ->)].
    + left. exists ((j, g') :: I1), g2, I2. repeat split; auto. cbn. intros [E|E]; congruence.
    + right. split; auto. intros [E|E]; congruence.
Qed.
Lemma lay_permM I1 M I2 i F X : M <> [] -> Forall (fun it => fst it = i) M ->
  Permutation (layout (I1 ++ M ++ I2) ++ X ++ F)
   (links a (idx None I1) (lastn hd I1) M ++ joint a (Some i) (lastn (lastn hd I1) M) (nidx n I2) (nnode hd I2) ++ X ++
    links a None hd I1 ++ rest a n hd I2 ++ empties a n (I1 ++ (i, []) :: I2) ++ F).
Proof.
  intros N E. rewrite layout_gen. rewrite (@empties_ext a n (I1 ++ M ++ I2) (I1 ++ (i, []) :: I2)).
  - assert (Ei : idx (idx None I1) M = Some i).
    { destruct M as [|y M]; [easy|]. unfold idx at 1. f_equal. rewrite Forall_forall in E. apply E. apply last_in. easy. }
    rewrite Ei. permc.
  - intros k _. rewrite !map_app, !in_app_iff. cbn [map fst In].
    enough (In k (map fst M) <-> i = k) by tauto. rewrite Forall_forall in E. split.
    + intros J. apply in_map_iff in J as (it & <- & J). now rewrite (E it).
    + intros <-. destruct M as [|y M]; [easy|]. left. apply E. now left.
Qed.
Lemma layout_end I : layout I = (links a None hd I ++ joint a (idx None I) (lastn hd I) n hd) ++ empties a n I.
Proof. unfold HashHeap.layout. now rewrite (links_app a None hd I [(n, [hd])]), links_one, app_nil_r. Qed.
Lemma lay_perm_end I i F X : ~ In i (map fst I) -> i < n ->
  Permutation (layout I ++ X ++ F) (joint a (idx None I) (lastn hd I) n hd ++ (PR (PB a i), PN null) :: X ++
    links a None hd I ++ empties a n (I ++ [(i, [])]) ++ F).
Proof.
  intros N L. rewrite layout_end.
  assert (E : Permutation (empties a n I) ((PR (PB a i), PN null) :: empties a n (I ++ [(i, [])]))).
  { apply empties_more; auto.
    - rewrite map_app, in_app_iff. right. now left.
    - intros k Hk. rewrite map_app, in_app_iff. cbn. intuition congruence. }
  permc.
Qed.
Lemma first_null I1 i g I2 : wfi n (I1 ++ (i, g) :: I2) -> first_of g <> null.
Proof. intros W. apply wfi_app in W as (_ & W). apply wfi_cons in W as ((_ & S & N) & _). intros E. apply N. rewrite <- E. now apply first_in. Qed.

Theorem link_range_lay h I i g v w F :
  wfi n I -> i < n -> shaped g ->
  hs h (layout I ++ (loose (first_of g) (last_of g) v w ++ inner g) ++ F) ->
  wp (link_range (first_of g) (last_of g) (PB a i) hd) (fun _ h' => hs h' (layout (ins_front i g I) ++ F)) (fun _ => False) h.
Proof.
  intros W L S H. destruct (ins_front_split i g I) as [(I1 & g' & I2 & -> & N & ->)|(N & ->)].
  - apply (hs_perm (lay_perm a n hd I1 I2 i F g' _)) in H.
    eapply wp_conseq; [eapply (@link_range_front a h (idx None I1) (lastn hd I1) i (first_of g') (first_of g) (last_of g) hd v w)| |easy].
    + intros E. apply N. now apply idx_in.
    + eapply first_null; eauto.
    + eapply hs_perm; [|exact H].
      assert (P : forall J A B1 B2 C D : list cell, Permutation (J ++ A ++ B1 ++ (C ++ B2) ++ D) (J ++ C ++ A ++ B1 ++ B2 ++ D)) by (intros; permc).
      apply P.
    + cbn beta. intros _ h' Hs. change (I1 ++ (i, g) :: (i, g') :: I2) with (I1 ++ [(i, g); (i, g')] ++ I2).
      eapply hs_perm; [symmetry; apply (@lay_permM I1 [(i, g); (i, g')] I2 i F []); [easy|repeat constructor]|].
      eapply hs_perm; [|exact Hs]. rewrite !lastn_cons. cbn [links lastn]. permc.
  - apply (hs_perm (@lay_perm_end I i F _ N L)) in H.
    eapply wp_conseq; [eapply (@link_range_empty a h (idx None I) (lastn hd I) i n hd (first_of g) (last_of g) v w)| |easy].
    + intros E. apply N. now apply idx_in.
    + lia.
    + now apply idx_lt.
    + eapply hs_perm; [|exact H].
      assert (P : forall J A B C D (c : cell), Permutation (J ++ c :: (A ++ B) ++ C ++ D) (J ++ c :: A ++ B ++ C ++ D)) by (intros; permc).
      apply P.
    + cbn beta. intros _ h' Hs. eapply hs_perm; [symmetry; apply (lay_perm0 a n hd I [] i F g)|].
      eapply hs_perm; [|exact Hs]. cbn [nidx nnode rest app]. permc.
Qed.
Theorem append_range_lay h I i g v w F :
  wfi n I -> idx None I = Some i -> shaped g ->
  hs h (layout I ++ (loose (first_of g) (last_of g) v w ++ inner g) ++ F) ->
  wp (append_range (first_of g) (last_of g) hd) (fun _ h' => hs h' (layout (I ++ [(i, g)]) ++ F)) (fun _ => False) h.
Proof.
  intros W E S H. assert (Ei := idx_in _ E).
  rewrite layout_end in H. rewrite (@empties_ext a n I (I ++ [(i, [])])) in H
    by (intros k _; rewrite map_app, in_app_iff; cbn; intuition congruence). rewrite E in H.
  assert (i <> n) by (intros ->; now apply (idx_lt W)).
  eapply wp_conseq; [eapply (@append_range_local a h (lastn hd I) i n hd (first_of g) (last_of g) v w); [auto|]| |easy].
  - eapply hs_perm; [|exact H].
    assert (P : forall L J A B C D : list cell, Permutation (((L ++ J) ++ A) ++ (B ++ C) ++ D) (J ++ B ++ A ++ L ++ C ++ D)) by (intros; permc).
    apply P.
  - cbn beta. intros _ h' Hs. eapply hs_perm; [symmetry; apply (lay_perm0 a n hd I [] i F g)|].
    eapply hs_perm; [|exact Hs]. cbn [nidx nnode rest app]. rewrite E. permc.
Qed.

(** next to equivalent elements *)
Theorem n_link_lay1 h I1 i f I2 x v w F :
  hs h (layout (I1 ++ (i, [f]) :: I2) ++ loose x x v w ++ F) ->
  wp (n_link x f f) (fun _ h' => hs h' (layout (I1 ++ (i, [x]) :: (i, [f]) :: I2) ++ F)) (fun _ => False) h.
Proof.
  intros H. apply (hs_perm (lay_perm a n hd I1 I2 i F [f] _)) in H. cbn [first_of last_of List.hd last inner app] in H.
  eapply wp_conseq; [eapply n_link_one; exact H| |easy]. cbn beta. intros _ h' Hs. 
  change (I1 ++ (i, [x]) :: (i, [f]) :: I2) with (I1 ++ [(i, [x]); (i, [f])] ++ I2).
  eapply hs_perm; [symmetry; apply (@lay_perm2 a n hd I1 I2 i F x f [])|]. rewrite joint_same in Hs. exact Hs.
Qed.
Theorem n_link_lay2 h I1 i f l I2 x v w F :
  hs h (layout (I1 ++ (i, [f]) :: (i, [l]) :: I2) ++ loose x x v w ++ F) ->
  wp (n_link x f l) (fun _ h' => hs h' (layout (I1 ++ (i, [x; f; l]) :: I2) ++ F)) (fun _ => False) h.
Proof.
  intros H. apply (hs_perm (lay_perm2 a n hd I1 I2 i F f l _)) in H.
  eapply wp_conseq; [eapply n_link_two; exact H| |easy]. cbn beta. intros _ h' Hs. 
  eapply hs_perm; [symmetry; apply (lay_perm0 a n hd I1 I2 i F [x; f; l])|]. exact Hs.
Qed.
Theorem n_link_lay3 h I1 i g I2 x v w F :
  shaped g -> 3 <= length g ->
  hs h (layout (I1 ++ (i, g) :: I2) ++ loose x x v w ++ F) ->
  wp (n_link x (first_of g) (last_of g)) (fun _ h' => hs h' (layout (I1 ++ (i, x :: g) :: I2) ++ F)) (fun _ => False) h.
Proof.
  intros S L H. destruct (shaped_cases S) as [(y & ->)|(f & s & m & l & ->)]; [cbn in L; lia|].
  apply (hs_perm (lay_perm a n hd I1 I2 i F _ _)) in H. rewrite grp_first, grp_last in *.
  eapply wp_conseq; [eapply (@n_link_group a h (idx None I1) (lastn hd I1) i f s m l x v w)| |easy].
  - eapply hs_perm; [|exact H].
    assert (P : forall A B C D E : list cell, Permutation (A ++ B ++ C ++ D ++ E) (A ++ B ++ D ++ C ++ E)) by (intros; permc). apply P.
  - cbn beta. intros _ h' Hs.
    eapply hs_perm; [symmetry; apply (lay_perm0 a n hd I1 I2 i F (x :: f :: s :: m ++ [l]))|].
    eapply hs_perm; [|exact Hs]. replace (last_of (x :: f :: s :: m ++ [l])) with l by (symmetry; apply (grp_last x f (s :: m) l)).
    cbn [first_of List.hd]. permc.
Qed.

(** ** Cutting off *)
Lemma u_unlink_last_lay h I0 i x F :
  wfi n (I0 ++ [(i, [x])]) -> hs h (layout (I0 ++ [(i, [x])]) ++ F) ->
  wp (u_unlink_last hd)
     (fun r h' => r = negb (same_bucket (idx None I0) i) /\ exists v w, hs h' (layout I0 ++ loose x x v w ++ F)) (fun _ => False) h.
Proof.
  intros W H. assert (Ct := layout_contig _ _ _ _ _ H). assert (W' := W). apply wfi_app in W' as (W1 & W2). apply wfi_cons in W2 as ((Li & Sg & Ng) & W2).
  apply (hs_perm (lay_perm0 a n hd I0 [] i F [x])) in H. cbn [nidx nnode first_of last_of List.hd last inner app] in H.
  eapply wp_conseq; [eapply u_unlink_last_local; [| |exact H]; [lia|now apply idx_lt]| |easy].
  cbn beta. intros r h' (-> & Hs). split; auto. do 2 eexists.
  eapply hs_perm; [symmetry|exact Hs]. 
  assert (P := @lay_perm_rem a n hd I0 [] i F [x] (loose x x (PN (lastn hd I0)) (PB a n)) Ct Li). rewrite app_nil_r in P. exact P.
Qed.
Lemma unlink_last_group_lay h I0 i g F :
  wfi n (I0 ++ [(i, g)]) -> hs h (layout (I0 ++ [(i, g)]) ++ F) ->
  wp (unlink_last_group hd)
     (fun r h' => r = (first_of g, negb (same_bucket (idx None I0) i)) /\
        exists v w, hs h' (layout I0 ++ (loose (first_of g) (last_of g) v w ++ inner g) ++ F)) (fun _ => False) h.
Proof.
  intros W H. assert (Ct := layout_contig _ _ _ _ _ H). assert (W' := W). apply wfi_app in W' as (W1 & W2). apply wfi_cons in W2 as ((Li & Sg & Ng) & W2).
  apply (hs_perm (lay_perm0 a n hd I0 [] i F g)) in H. cbn [nidx nnode] in H.
  assert (P := fun X => @lay_perm_rem a n hd I0 [] i F g X Ct Li). rewrite app_nil_r in P. cbn [nidx nnode] in P.
  assert (Ni : i <> n) by lia. assert (Nn := idx_lt W1).
  destruct (shaped_cases Sg) as [(x & ->)|(f & s & m & l & ->)].
  - cbn [first_of last_of List.hd last inner app] in *.
    eapply wp_conseq; [eapply unlink_last_group_one; [exact Ni|exact Nn|exact H]| |easy]. cbn beta. intros r h' (-> & Hs). split; auto.
    do 2 eexists. eapply hs_perm; [symmetry; apply P|exact Hs].
  - rewrite grp_first, grp_last in *.
    eapply wp_conseq; [eapply unlink_last_group_grp; [exact Ni|exact Nn|exact H]| |easy]. cbn beta. intros r h' (-> & Hs). split; auto.
    exists (PN (lastn hd I0)), (PB a n). eapply hs_perm; [symmetry; apply P|]. eapply hs_perm; [|exact Hs]. permc.
Qed.
Lemma first_by_last_lay h I1 i g I2 F :
  wfi n (I1 ++ (i, g) :: I2) -> hs h (layout (I1 ++ (i, g) :: I2) ++ F) ->
  Rd (first_by_last (last_of g)) (first_of g) h.
Proof.
  intros W H. apply wfi_app in W as (W1 & W2). apply wfi_cons in W2 as ((Li & Sg & Ng) & W2).
  apply (hs_perm (lay_perm0 a n hd I1 I2 i F g)) in H.
  assert (E : exists w J, Permutation (joint a (Some i) (last_of g) (nidx n I2) (nnode hd I2)) ((NX (last_of g), w) :: J)).
  { unfold joint. destruct (same_bucket (Some i) (nidx n I2)); do 2 eexists; reflexivity. }
  destruct E as (w & J & E).
  destruct (shaped_cases Sg) as [(x & ->)|(f & s & m & l & ->)].
  - cbn [first_of last_of List.hd last inner app] in *. eapply first_by_last_one. eapply hs_perm; [|exact H].
    apply Permutation_app_head. exact (Permutation_app_tail _ E).
  - rewrite grp_first, grp_last in *. eapply first_by_last_grp. eapply hs_perm; [|exact H].
    do 2 apply Permutation_app_head. exact (Permutation_app_tail _ E).
Qed.
Lemma unlink_range_lay h I1 i g I2 F :
  wfi n (I1 ++ (i, g) :: I2) -> hs h (layout (I1 ++ (i, g) :: I2) ++ F) ->
  wp (unlink_range (first_of g) (last_of g))
     (fun _ h' => exists v w, hs h' (layout (I1 ++ I2) ++ (loose (first_of g) (last_of g) v w ++ inner g) ++ F)) (fun _ => False) h.
Proof.
  intros W H. assert (Ct := layout_contig _ _ _ _ _ H). apply wfi_app in W as (W1 & W2). apply wfi_cons in W2 as ((Li & Sg & Ng) & W2).
  apply (hs_perm (lay_perm0 a n hd I1 I2 i F g)) in H.
  assert (P := fun X => @lay_perm_rem a n hd I1 I2 i F g X Ct Li). assert (Cc := fun E => contig_cond n I1 i g I2 Ct E).
  destruct (shaped_cases Sg) as [(x & ->)|(f & s & m & l & ->)].
  - cbn [first_of last_of List.hd last inner app] in *.
    eapply wp_conseq; [eapply unlink_range_one; [exact Cc|exact H]| |easy]. cbn beta. intros r h' (v & w & Hs).
    exists v, w. eapply hs_perm; [symmetry; apply P|exact Hs].
  - rewrite grp_first, grp_last in *.
    eapply wp_conseq; [eapply unlink_range_grp; [exact Cc|exact H]| |easy]. cbn beta. intros r h' (v & w & Hs).
    exists v, w. eapply hs_perm; [symmetry; apply P|]. eapply hs_perm; [|exact Hs]. permc.
Qed.
End Ops.
