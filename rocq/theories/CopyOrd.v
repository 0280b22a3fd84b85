(** Copying the links of an ordered index. *)
From Verif Require Import Prelude Layer OrdIdx OrdLayer Copy OrdModel OrdTree OrdHeap OrdRot OrdLink.
Set Implicit Arguments.
Local Notation size := OrdTree.size.

(** What is known of a copy map: [f] takes originals to copies. *)
Record copying (mfind : node -> option node) (m : cmap) (f : node -> node) (hs hd : node) (lk : list node) : Prop := mkCp {
  c_find : forall x, In x (hs :: lk) -> mfind x = Some (f x);
  c_hd : f hs = hd;
  c_null : f null = null;
  c_map : Permutation m (List.map (fun x => (x, f x)) lk);
  c_nd : NoDup (List.map f (null :: hs :: lk)) }.

Lemma nd_map_inj {A B} (f : A -> B) l x y : NoDup (List.map f l) -> In x l -> In y l -> f x = f y -> x = y.
Proof.
  induction l as [|a l IH]; cbn; [easy|]. intros N Ix Iy E. inversion N as [|? ? N1 N2]; subst.
  destruct Ix as [->|Ix], Iy as [->|Iy]; auto.
  - contradict N1. rewrite E. now apply in_map.
  - contradict N1. rewrite <- E. now apply in_map.
Qed.
Lemma nd_of_map {A B} (f : A -> B) l : NoDup (List.map f l) -> NoDup l.
Proof. apply NoDup_map_inv. Qed.
Lemma copying_inj mfind m f hs hd lk x y : copying mfind m f hs hd lk -> In x (null :: hs :: lk) -> In y (null :: hs :: lk) -> f x = f y -> x = y.
Proof. intros C. apply nd_map_inj, (c_nd C). Qed.
Lemma look_up_ok S mfind m f hs hd lk x : copying mfind m f hs hd lk -> In x (hs :: lk) -> forall s : S, look_up mfind x s = Ret (f x) s.
Proof. intros C I s. unfold look_up. now rewrite (c_find C I). Qed.
Lemma from_ok {S T A} (x x' : S) (m : M S A) a (t : T) : m x = Ret a x' -> from x m t = Ret a t.
Proof. intros E. unfold from. now rewrite E. Qed.
Lemma wp_from {S T A B} (x x' : S) (m : M S A) a (k : A -> M T B) Q Ex t : m x = Ret a x' -> wp (k a) Q Ex t -> wp (bind (from x m) k) Q Ex t.
Proof. intros E W. eapply wp_bind_ret; [eapply from_ok; exact E|exact W]. Qed.
Lemma wp_look {S B} mfind m f hs hd lk x (k : node -> M S B) Q Ex s : copying mfind m f hs hd lk -> In x (hs :: lk) ->
  wp (k (f x)) Q Ex s -> wp (bind (look_up mfind x) k) Q Ex s.
Proof. intros C I W. eapply wp_bind_ret; [eapply look_up_ok; eauto|exact W]. Qed.

(** loops over the map *)
Lemma for_pairs_in S (body : node -> node -> M S unit) (P : list (node * node) -> S -> Prop) Ex m :
  (forall done e s, In e m -> P done s -> wp (body (fst e) (snd e)) (fun _ s' => P (e :: done) s') Ex s) ->
  forall s, P [] s -> wp (for_pairs body m) (fun _ s' => P (rev m) s') Ex s.
Proof.
  intros H s Ps.
  assert (X : forall m2 m1 s, m = m1 ++ m2 -> P (rev m1) s -> wp (for_pairs body m2) (fun _ s' => P (rev m) s') Ex s).
  { induction m2 as [|(o, c) m2 IH]; intros m1 s1 Em Ps1; cbn [for_pairs].
    - apply wp_ret. rewrite app_nil_r in Em. now subst.
    - apply wp_bind. eapply wp_conseq; [apply (H (rev m1) (o, c) s1); auto| |auto].
      + rewrite Em, in_app_iff. right. now left.
      + intros ? s' Ps'. apply (IH (m1 ++ [(o, c)])); [now rewrite <- app_assoc|]. rewrite rev_app_distr. exact Ps'. }
  apply (X m [] s eq_refl Ps).
Qed.

Section Ord.
Variable mfind : node -> option node.
Variable m : cmap.
Variable f : node -> node.
Variables hs hd : node.
Variable lk : list node.
Hypothesis C : copying mfind m f hs hd lk.
Variable rk : bool.
Variable junk : cell.
Variable h : heap.
Variable t : tree.
Variable sz : nat.
Hypothesis TA : tat hs sz h t [].
Hypothesis RB : rbt rk t.
Hypothesis PL : Permutation (inorder t) lk.

Fixpoint tmap (t : tree) : tree :=
  match t with
  | E => E
  | T c n l x r => T c (if rk then n else cs junk) (tmap l) (f x) (tmap r)
  end.
Definition cimg (c : cell) : cell := mk (f (cl c)) (f (cr c)) (f (cp c)) (cc c) (if rk then OrdModel.cs c else OrdModel.cs junk).
Lemma tmap_inorder t0 : inorder (tmap t0) = List.map f (inorder t0).
Proof. induction t0; cbn; auto. rewrite IHt0_1, IHt0_2, map_app. reflexivity. Qed.
Lemma tmap_root t0 : rootp (tmap t0) = f (rootp t0).
Proof. destruct t0; cbn; auto. symmetry. apply (c_null C). Qed.
Lemma tmap_cells t0 : forall p, cells (f p) (tmap t0) = List.map (fun e => (f (fst e), cimg (snd e))) (cells p t0).
Proof.
  induction t0 as [|c n l IHl x r IHr]; intros p; cbn; auto. rewrite map_app, IHl, IHr, !tmap_root. reflexivity.
Qed.
Lemma tmap_rbt : rbt rk (tmap t).
Proof.
  destruct RB as (A & (k & B) & D & S).
  assert (Cl : forall t0, colr (tmap t0) = colr t0) by (intros []; reflexivity).
  assert (Sz : forall t0, size (tmap t0) = size t0) by (induction t0; cbn; auto; lia).
  unfold rbt. splits.
  - clear - A Cl. induction t as [|c n l IHl x r IHr]; cbn in *; auto. rewrite !Cl. destruct A as (A1 & A2 & A3). splits; auto.
  - exists k. clear - B. induction B; cbn; constructor; auto.
  - now rewrite Cl.
  - intros R. specialize (S R). clear - S Sz R. induction t as [|c n l IHl x r IHr]; cbn in *; auto. rewrite R, !Sz.
    destruct S as (S1 & S2 & S3). auto.
Qed.

(** facts about the original *)
Lemma dom_hd : In hs (hs :: lk). Proof. now left. Qed.
Lemma get_hd : h hs = Some (hcell hs sz t).
Proof. eapply wfc_get; [exact TA|]. now left. Qed.
Lemma get_in x c : In (x, c) (cells hs t) -> h x = Some c.
Proof. intros I. eapply wfc_get; [exact TA|]. right. rewrite in_app_iff. auto. Qed.
Lemma in_lk x : In x lk <-> exists c, In (x, c) (cells hs t).
Proof.
  split.
  - intros I. assert (J : In x (List.map fst (cells hs t))).
    { eapply Permutation_in; [symmetry; rewrite fst_cells; exact PL|auto]. }
    apply in_map_iff in J as ((y, c) & E & J). cbn in E. subst. eauto.
  - intros (c & I). apply (in_map fst) in I. cbn in I. eapply Permutation_in; [|exact I]. rewrite fst_cells. exact PL.
Qed.
Lemma orig_nd : NoDup (null :: hs :: lk).
Proof. apply (nd_of_map f), (c_nd C). Qed.
Lemma not_null x : In x (hs :: lk) -> x <> null.
Proof. intros I ->. assert (N := orig_nd). inversion N; subst. auto. Qed.

Lemma rootp_cell p t0 : t0 <> E -> exists c, In (rootp t0, c) (cells p t0) /\ cp c = p.
Proof. destruct t0 as [|c n l x r]; [easy|]. intros _. eexists. cbn. split; [now left|reflexivity]. Qed.
Lemma rootp_null t0 p : NoDup (null :: List.map fst (cells p t0)) -> rootp t0 = null -> t0 = E.
Proof. destruct t0; auto. cbn. intros N Er. subst x. inversion N as [|? ? N1 _]. exfalso. apply N1. now left. Qed.
Lemma child_l t0 : forall p x c, NoDup (null :: List.map fst (cells p t0)) -> In (x, c) (cells p t0) -> cl c <> null ->
  exists c', In (cl c, c') (cells p t0) /\ cp c' = x.
Proof.
  induction t0 as [|c0 n l IHl y r IHr]; cbn; [easy|]. intros p x c N I Ne.
  assert (Nn : NoDup (null :: List.map fst (cells y l)) /\ NoDup (null :: List.map fst (cells y r))).
  { inversion N as [|? ? N1 N2]; subst. inversion N2 as [|? ? N3 N4]; subst. rewrite map_app in *. apply NoDup_app_iff in N4 as (N5 & N6 & _).
    split; constructor; auto; intros J; apply N1; right; rewrite in_app_iff; auto. }
  destruct I as [Ec|I].
  - injection Ec as <- <-. cbn in *. destruct (@rootp_cell y l) as (c' & I' & E').
    { intros ->. now apply Ne. }
    exists c'. split; auto. right. rewrite in_app_iff. auto.
  - apply in_app_iff in I as [I|I].
    + destruct (IHl _ _ _ (proj1 Nn) I Ne) as (c' & I' & E'). exists c'. rewrite in_app_iff. auto.
    + destruct (IHr _ _ _ (proj2 Nn) I Ne) as (c' & I' & E'). exists c'. rewrite in_app_iff. auto.
Qed.
Lemma child_r t0 : forall p x c, NoDup (null :: List.map fst (cells p t0)) -> In (x, c) (cells p t0) -> cr c <> null ->
  cl c <> cr c /\ exists c', In (cr c, c') (cells p t0) /\ cp c' = x.
Proof.
  induction t0 as [|c0 n l IHl y r IHr]; cbn; [easy|]. intros p x c N I Ne.
  assert (Nn : NoDup (null :: List.map fst (cells y l)) /\ NoDup (null :: List.map fst (cells y r)) /\
     forall z, In z (List.map fst (cells y l)) -> In z (List.map fst (cells y r)) -> False).
  { inversion N as [|? ? N1 N2]; subst. inversion N2 as [|? ? N3 N4]; subst. rewrite map_app in *. apply NoDup_app_iff in N4 as (N5 & N6 & N7).
    splits; try constructor; auto; try (intros J; apply N1; right; rewrite in_app_iff; auto). }
  destruct Nn as (Nl & Nr & Nd). destruct I as [Ec|I].
  - injection Ec as <- <-. cbn in *. destruct (@rootp_cell y r) as (c' & I' & E').
    { intros ->. now apply Ne. }
    split.
    + intros Eq. destruct (@rootp_cell y l) as (c2 & I2 & _).
      { intros ->. cbn in Eq. auto. }
      apply (Nd (rootp r)); [rewrite <- Eq; now apply (in_map fst) in I2|now apply (in_map fst) in I'].
    + exists c'. split; auto. right. rewrite in_app_iff. auto.
  - apply in_app_iff in I as [I|I].
    + destruct (IHl _ _ _ Nl I Ne) as (D & c' & I' & E'). split; auto. exists c'. rewrite in_app_iff. auto.
    + destruct (IHr _ _ _ Nr I Ne) as (D & c' & I' & E'). split; auto. exists c'. rewrite in_app_iff. auto.
Qed.
Lemma parent_in t0 : forall p x c, In (x, c) (cells p t0) -> In (cp c) (p :: List.map fst (cells p t0)).
Proof.
  induction t0 as [|c0 n l IHl y r IHr]; cbn; [easy|]. intros p x c [Ec|I].
  - injection Ec as <- <-. cbn. auto.
  - right. rewrite map_app, in_app_iff. apply in_app_iff in I as [I|I].
    + apply IHl in I. cbn in I. tauto.
    + apply IHr in I. cbn in I. tauto.
Qed.
Lemma cells_nd : NoDup (null :: List.map fst (cells hs t)).
Proof.
  eapply NoDup_perm; [apply perm_skip; symmetry; apply fst_cells|]. eapply NoDup_perm; [apply perm_skip; symmetry; exact PL|].
  assert (N := orig_nd). inversion N as [|? ? N1 N2]; subst. inversion N2; subst. constructor; auto. intros I. apply N1. now right.
Qed.

(** ** fields which are right *)
Definition has_all (g : heap) : Prop := forall p, In p (hs :: lk) -> exists c, g (f p) = Some c.
Inductive fld := FL | FR | FP | FC | FS.
Definition right (g : heap) (w : fld) (p : node) : Prop :=
  forall c c', h p = Some c -> g (f p) = Some c' ->
  match w with
  | FL => cl c' = f (cl c)
  | FR => cr c' = f (cr c)
  | FP => cp c' = f (cp c)
  | FC => cc c' = cc c
  | FS => if rk then OrdModel.cs c' = OrdModel.cs c else p <> hs -> OrdModel.cs c' = OrdModel.cs junk
  end.
(** nothing right gets wrong *)
Definition pres (g g' : heap) : Prop := has_all g' /\ forall w p, In p (hs :: lk) -> right g w p -> right g' w p.
Lemma pres_refl g : has_all g -> pres g g.
Proof. split; auto. Qed.
Lemma pres_trans g g' g'' : pres g g' -> pres g' g'' -> pres g g''.
Proof. intros (A & B) (A' & B'). split; auto. Qed.

Lemma wr_right (fn : cell -> cell) (w : fld) g p c : has_all g -> In p (hs :: lk) -> h p = Some c ->
  (forall c', let d := fn c' in
     (if match w with FL => true | _ => false end then cl d = f (cl c) else cl d = cl c') /\
     (if match w with FR => true | _ => false end then cr d = f (cr c) else cr d = cr c') /\
     (if match w with FP => true | _ => false end then cp d = f (cp c) else cp d = cp c') /\
     (if match w with FC => true | _ => false end then cc d = cc c else cc d = cc c') /\
     (if match w with FS => true | _ => false end then rk = true /\ OrdModel.cs d = OrdModel.cs c else OrdModel.cs d = OrdModel.cs c')) ->
  wp (wr fn (f p)) (fun _ g' => pres g g' /\ right g' w p) (fun _ => False) g.
Proof.
  intros Ha I Hp Hf. unfold wp, wr. destruct (Ha p I) as (c' & E'). rewrite E'.
  assert (Inj : forall q, In q (hs :: lk) -> q <> p -> f q <> f p).
  { intros q J Ne Ef. apply Ne. eapply copying_inj; [exact C|right; exact J|right; exact I|exact Ef]. }
  specialize (Hf c'). cbn zeta in Hf. destruct Hf as (F1 & F2 & F3 & F4 & F5). split; [split|].
  - intros q J. destruct (Nat.eq_dec q p) as [->|Ne]; [rewrite upd_eq; eauto|]. rewrite upd_neq by auto. auto.
  - intros v q J R. destruct (Nat.eq_dec q p) as [->|Ne].
    + intros d d' Hd. rewrite upd_eq. intros X. injection X as <-. specialize (R d c' Hd E'). assert (d = c) by congruence. subst d.
      destruct w, v; cbn in F1, F2, F3, F4, F5; try congruence; try (destruct rk; [congruence|intros; rewrite F5; auto]);
        destruct F5 as (-> & F5); congruence.
    + intros d d' Hd. rewrite upd_neq by auto. apply R. exact Hd.
  - intros d d' Hd. rewrite upd_eq. intros X. injection X as <-. assert (d = c) by congruence. subst d.
    destruct w; cbn in *; try congruence. destruct F5 as (-> & F5). exact F5.
Qed.

Lemma c_of x : In x lk -> exists c, In (x, c) (cells hs t) /\ h x = Some c.
Proof. intros I. apply in_lk in I as (c & I). exists c. split; auto. now apply get_in. Qed.
Lemma cell_in x c : In x lk -> h x = Some c -> In (x, c) (cells hs t).
Proof. intros I E. destruct (c_of _ I) as (c' & I' & E'). congruence. Qed.
Lemma cells_lk x c : In (x, c) (cells hs t) -> In x lk.
Proof. intros I. apply in_lk. eauto. Qed.
Lemma cp_in x c : In (x, c) (cells hs t) -> In (cp c) (hs :: lk).
Proof.
  intros I. apply parent_in in I. destruct I as [<-|I]; [now left|]. right.
  apply in_map_iff in I as ((y, d) & E & I). cbn in E. rewrite <- E. eapply cells_lk; eauto.
Qed.

(** what a round of the loop settles *)
Definition settled (g : heap) (x : node) : Prop :=
  right g FC x /\ right g FS x /\ right g FP x /\
  (forall c, h x = Some c -> cl c = null -> right g FL x) /\
  (forall c, h x = Some c -> cr c = null -> right g FR x) /\
  (forall c d, h x = Some c -> h (cp c) = Some d -> cl d = x -> right g FL (cp c)) /\
  (forall c d, h x = Some c -> h (cp c) = Some d -> cl d <> x -> cr d = x -> right g FR (cp c)).
Lemma settled_pres g g' x : pres g g' -> In x lk -> settled g x -> settled g' x.
Proof.
  intros (_ & P) I (A & B & D & F & G & H & K). assert (J : In x (hs :: lk)) by now right.
  assert (Q : forall c, h x = Some c -> In (cp c) (hs :: lk)) by (intros c Hc; eapply cp_in, cell_in; eauto).
  unfold settled. splits; eauto.
Qed.
Ltac wrr := eapply wp_conseq; [eapply wr_right; eauto; intros; cbn; tauto| |easy].

Lemma wp_rk A (a b : HM A) Q Ex g : (rk = true -> wp a Q Ex g) -> (rk = false -> wp b Q Ex g) -> wp (if rk then a else b) Q Ex g.
Proof. clear RB. destruct rk; auto. Qed.
Lemma o_copy_node_ok g x : has_all g -> (rk = false -> forall p, In p (hs :: lk) -> right g FS p) -> In x lk ->
  wp (o_copy_node mfind rk h x (f x)) (fun _ g' => pres g g' /\ settled g' x) (fun _ => False) g.
Proof.
  intros Ha Hs I. destruct (c_of _ I) as (c & Ic & Hc). assert (J : In x (hs :: lk)) by now right.
  assert (Ip : In (cp c) (hs :: lk)) by (eapply cp_in; eauto).
  unfold o_copy_node. eapply wp_from; [unfold gc, rd; rewrite Hc; reflexivity|].
  apply wp_bind. eapply wp_conseq; [apply (@wr_right (fun c' => mk (cl c') (cr c') (cp c') (cc c) (OrdModel.cs c')) FC g x c); auto; cbn; tauto| |easy].
  intros [] g1 (P1 & R1). apply wp_bind.
  eapply (@wp_conseq _ _ _ (fun _ g2 => pres g1 g2 /\ right g2 FS x) _ (fun _ => False)); [| |easy].
  { apply wp_rk; intros Rk.
    - eapply wp_from; [unfold gs, rd; rewrite Hc; reflexivity|].
      eapply wp_conseq; [apply (@wr_right (fun c' => mk (cl c') (cr c') (cp c') (cc c') (OrdModel.cs c)) FS g1 x c); auto; try apply P1; cbn; tauto| |easy]. auto.
    - apply wp_ret. split; [apply pres_refl, P1|]. apply P1; auto. }
  intros [] g2 (P2 & R2). assert (P02 := pres_trans P1 P2).
  eapply wp_from; [unfold gp, rd; rewrite Hc; reflexivity|]. apply wp_bind.
  rewrite (proj2 (Nat.eqb_neq _ _) (@not_null _ Ip)).
  eapply wp_look; [exact C|exact Ip|]. apply wp_bind.
  eapply wp_conseq; [apply (@wr_right (fun c' => mk (cl c') (cr c') (f (cp c)) (cc c') (OrdModel.cs c')) FP g2 x c); auto; try apply P2; cbn; tauto| |easy].
  intros [] g3 (P3 & R3). assert (P03 := pres_trans P02 P3).
  assert (Hd : exists d, h (cp c) = Some d).
  { destruct Ip as [<-|Ip]; [rewrite get_hd; eauto|]. destruct (c_of _ Ip) as (d & _ & E). eauto. }
  destruct Hd as (d & Hd).
  eapply wp_from; [unfold gl, rd; rewrite Hd; reflexivity|].
  eapply (@wp_conseq _ _ _ (fun _ g4 => pres g3 g4 /\ (cl d = x -> right g4 FL (cp c)) /\ (cl d <> x -> cr d = x -> right g4 FR (cp c))) _ (fun _ => False)); [| |easy].
  { destruct (Nat.eqb_spec (cl d) x) as [El|El].
    - eapply wp_conseq; [apply (@wr_right (fun c' => mk (f x) (cr c') (cp c') (cc c') (OrdModel.cs c')) FL g3 (cp c) d); auto; try apply P3; rewrite El; cbn; tauto| |easy].
      cbn. intros _ g4 (A & B). splits; auto. easy.
    - eapply wp_from; [unfold gr, rd; rewrite Hd; reflexivity|]. destruct (Nat.eqb_spec (cr d) x) as [Er|Er].
      + eapply wp_conseq; [apply (@wr_right (fun c' => mk (cl c') (f x) (cp c') (cc c') (OrdModel.cs c')) FR g3 (cp c) d); auto; try apply P3; rewrite Er; cbn; tauto| |easy].
        cbn. intros _ g4 (A & B). splits; auto. easy.
      + apply wp_ret. splits; try easy. apply pres_refl, P3. }
  intros [] g4 (P4 & R4 & R4'). assert (P04 := pres_trans P03 P4).
  eapply wp_from; [unfold gl, rd; rewrite Hc; reflexivity|]. apply wp_bind.
  eapply (@wp_conseq _ _ _ (fun _ g5 => pres g4 g5 /\ (cl c = null -> right g5 FL x)) _ (fun _ => False)); [| |easy].
  { destruct (Nat.eqb_spec (cl c) null) as [El|El].
    - eapply wp_conseq; [apply (@wr_right (fun c' => mk null (cr c') (cp c') (cc c') (OrdModel.cs c')) FL g4 x c); auto; try apply P4; rewrite El, (c_null C); cbn; tauto| |easy]. cbn; tauto.
    - apply wp_ret. splits; try easy. apply pres_refl, P4. }
  intros [] g5 (P5 & R5). assert (P05 := pres_trans P04 P5).
  eapply wp_from; [unfold gr, rd; rewrite Hc; reflexivity|].
  eapply (@wp_conseq _ _ _ (fun _ g6 => pres g5 g6 /\ (cr c = null -> right g6 FR x)) _ (fun _ => False)); [| |easy].
  { destruct (Nat.eqb_spec (cr c) null) as [El|El].
    - eapply wp_conseq; [apply (@wr_right (fun c' => mk (cl c') null (cp c') (cc c') (OrdModel.cs c')) FR g5 x c); auto; try apply P5; rewrite El, (c_null C); cbn; tauto| |easy]. cbn; tauto.
    - apply wp_ret. splits; try easy. apply pres_refl, P5. }
  intros [] g6 (P6 & R6). assert (P06 := pres_trans P05 P6). split; auto.
  assert (P46 := pres_trans P5 P6). assert (P36 := pres_trans P4 P46). assert (P26 := pres_trans P3 P36). assert (P16 := pres_trans P2 P26).
  unfold settled. splits.
  - now apply P16.
  - now apply P26.
  - now apply P36.
  - intros c' Hc' N. rewrite Hc in Hc'. injection Hc' as <-. apply P6; auto.
  - intros c' Hc' N. rewrite Hc in Hc'. injection Hc' as <-. auto.
  - intros c' d' Hc' Hd' N. rewrite Hc in Hc'. injection Hc' as <-. rewrite Hd in Hd'. injection Hd' as <-. apply P46; auto.
  - intros c' d' Hc' Hd' N N'. rewrite Hc in Hc'. injection Hc' as <-. rewrite Hd in Hd'. injection Hd' as <-. apply P46; auto.
Qed.

Lemma o_place_ok g c0 : g hd = Some c0 ->
  wp (o_place m junk) (fun _ g' => has_all g' /\ (rk = false -> forall p, In p (hs :: lk) -> right g' FS p) /\ g' hd = Some c0) (fun _ => False) g.
Proof.
  intros Hg. eapply wp_conseq.
  - apply (@for_pairs_in _ _ (fun done g' => g' hd = Some c0 /\ forall e, In e done -> g' (snd e) = Some junk) (fun _ => False) m).
    + intros done e g' Ie (A & B). unfold wp. split.
      * rewrite upd_neq; auto. intros E. apply (Permutation_in _ (c_map C)), in_map_iff in Ie as (x & <- & Ix). cbn in E.
        rewrite <- (c_hd C) in E. assert (x = hs).
        { eapply copying_inj; [exact C|right; now right|right; now left|congruence]. }
        subst x. assert (N := orig_nd). inversion N as [|? ? N1 N2]. inversion N2; auto.
      * intros e' [<-|I']; [apply upd_eq|]. destruct (Nat.eq_dec (snd e') (snd e)) as [->|Ne]; [apply upd_eq|rewrite upd_neq; auto].
    + split; auto. easy.
  - intros [] g' (A & B). assert (P : forall x, In x lk -> g' (f x) = Some junk).
    { intros x Ix. apply (B (x, f x)). rewrite <- in_rev. eapply Permutation_in; [symmetry; exact (c_map C)|]. apply in_map_iff. eauto. }
    splits; auto.
    + intros p [<-|Ip]; [rewrite (c_hd C); eauto|eauto].
    + intros Rk p [<-|Ip] c c' Hc Hc'; rewrite Rk; [easy|]. rewrite (P p Ip) in Hc'. injection Hc' as <-. auto.
  - easy.
Qed.

Lemma right_all g : has_all g -> (forall w p, In p (hs :: lk) -> right g w p) -> has rk hd g (List.map f (inorder t)).
Proof.
  intros Ha Hr. assert (Gh := get_hd).
  destruct (Ha hs) as (c0 & H0); [now left|]. rewrite (c_hd C) in H0.
  exists (tmap t), (OrdModel.cs c0). splits.
  - unfold tat. rewrite app_nil_r. rewrite <- (c_hd C) at 3. rewrite tmap_cells. split.
    + eapply NoDup_perm; [|exact (c_nd C)]. rewrite !map_cons, (c_null C), (c_hd C). cbn [fst]. do 2 apply perm_skip.
      rewrite map_map. cbn [fst]. rewrite <- (map_map fst f). apply Permutation_map. symmetry. rewrite fst_cells. exact PL.
    + constructor.
      * cbn [fst snd]. rewrite H0. f_equal. unfold hcell. rewrite tmap_root, tmap_inorder.
        rewrite <- (c_hd C) in H0.
        assert (L := Hr FL hs dom_hd _ _ Gh H0). assert (R := Hr FR hs dom_hd _ _ Gh H0).
        assert (P := Hr FP hs dom_hd _ _ Gh H0). assert (D := Hr FC hs dom_hd _ _ Gh H0). cbn in L, R, P, D.
        destruct c0; cbn in *. subst. f_equal.
        -- destruct (inorder t); cbn; auto. apply (c_hd C).
        -- rewrite <- (c_hd C). clear. induction (inorder t) as [|a [|b l] IH]; cbn in *; auto.
      * rewrite Forall_map. apply Forall_forall. intros (x, c) Ix. cbn [fst snd].
        assert (Il := cells_lk _ _ Ix). assert (J : In x (hs :: lk)) by now right. assert (Hc := get_in _ _ Ix).
        destruct (Ha x J) as (c' & E'). rewrite E'. f_equal.
        assert (L := Hr FL x J _ _ Hc E'). assert (R := Hr FR x J _ _ Hc E').
        assert (P := Hr FP x J _ _ Hc E'). assert (D := Hr FC x J _ _ Hc E'). assert (Sz := Hr FS x J _ _ Hc E'). cbn in L, R, P, D, Sz.
        destruct c'; unfold cimg; cbn in *. subst. f_equal. destruct rk; auto. apply Sz. intros ->.
        assert (N := orig_nd). inversion N as [|? ? N1 N2]. inversion N2; auto.
  - apply tmap_rbt.
  - apply tmap_inorder.
Qed.

Lemma o_copy_ok g c0 : g hd = Some c0 ->
  wp (o_copy mfind m hs hd rk junk h) (fun _ g' => has rk hd g' (List.map f (inorder t))) (fun _ => False) g.
Proof.
  intros Hg. assert (Gh := get_hd). unfold o_copy. apply wp_bind. eapply wp_conseq; [apply o_place_ok; exact Hg| |easy].
  intros [] g1 (Ha & Hs & H0). eapply wp_from; [unfold gp, rd; rewrite Gh; reflexivity|]. cbn [hcell cp].
  destruct (Nat.eqb_spec (rootp t) null) as [Er|Er].
  - assert (Et : t = E) by (eapply rootp_null; [apply cells_nd|auto]). rewrite Et. cbn.
    unfold wp, OrdModel.empty_initialize, bind, sc, sp, sl, sr, wr. rewrite H0. cbn. rewrite !upd_eq. cbn.
    exists E, (OrdModel.cs c0). splits; auto.
    + assert (N := c_nd C). rewrite !map_cons, (c_null C), (c_hd C) in N. split; cbn.
      * inversion N as [|? ? N1 N2]. constructor; [intros [X|[]]; apply N1; now left|]. constructor; [cbn; tauto|constructor].
      * constructor; auto. cbn. apply upd_eq.
    + split; cbn; auto. splits; auto. exists 0. constructor.
  - assert (Nt : t <> E) by (intros ->; now apply Er). assert (Ine : inorder t <> []).
    { destruct t; [easy|]. cbn. destruct (inorder t0_1); discriminate. }
    assert (Ir : In (rootp t) (hs :: lk)).
    { right. destruct (rootp_cell hs Nt) as (c & I & _). eapply cells_lk; eauto. }
    assert (Il : In (List.hd hs (inorder t)) (hs :: lk)).
    { right. eapply Permutation_in; [exact PL|]. destruct (inorder t); [easy|now left]. }
    assert (Irr : In (last (inorder t) hs) (hs :: lk)).
    { right. eapply Permutation_in; [exact PL|]. rewrite (app_removelast_last hs Ine) at 2. rewrite in_app_iff. right. now left. }
    assert (Dh := dom_hd).
    eapply wp_from; [unfold gc, rd; rewrite Gh; reflexivity|]. apply wp_bind. rewrite <- (c_hd C).
    eapply wp_conseq; [apply (@wr_right (fun c' => mk (cl c') (cr c') (cp c') (cc (hcell hs sz t)) (OrdModel.cs c')) FC g1 hs (hcell hs sz t)); auto; cbn; tauto| |easy].
    intros [] g2 (P2 & R2). apply wp_bind.
    eapply (@wp_conseq _ _ _ (fun _ g3 => pres g2 g3 /\ right g3 FS hs) _ (fun _ => False)); [| |easy].
    { apply wp_rk; intros Rk.
      - eapply wp_from; [unfold gs, rd; rewrite Gh; reflexivity|].
        eapply wp_conseq; [apply (@wr_right (fun c' => mk (cl c') (cr c') (cp c') (cc c') (OrdModel.cs (hcell hs sz t))) FS g2 hs (hcell hs sz t)); auto; try apply P2; cbn; tauto| |easy]. auto.
      - apply wp_ret. split; [apply pres_refl, P2|]. apply P2; auto. }
    intros [] g3 (P3 & R3). assert (P13 := pres_trans P2 P3).
    eapply wp_from; [unfold gp, rd; rewrite Gh; reflexivity|]. eapply wp_look; [exact C|exact Ir|]. apply wp_bind.
    eapply wp_conseq; [apply (@wr_right (fun c' => mk (cl c') (cr c') (f (rootp t)) (cc c') (OrdModel.cs c')) FP g3 hs (hcell hs sz t)); auto; try apply P3; cbn; tauto| |easy].
    intros [] g4 (P4 & R4). assert (P14 := pres_trans P13 P4).
    eapply wp_from; [unfold gl, rd; rewrite Gh; reflexivity|]. eapply wp_look; [exact C|exact Il|]. apply wp_bind.
    eapply wp_conseq; [apply (@wr_right (fun c' => mk (f (List.hd hs (inorder t))) (cr c') (cp c') (cc c') (OrdModel.cs c')) FL g4 hs (hcell hs sz t)); auto; try apply P4; cbn; tauto| |easy].
    intros [] g5 (P5 & R5). assert (P15 := pres_trans P14 P5).
    eapply wp_from; [unfold gr, rd; rewrite Gh; reflexivity|]. eapply wp_look; [exact C|exact Irr|]. apply wp_bind.
    eapply wp_conseq; [apply (@wr_right (fun c' => mk (cl c') (f (last (inorder t) hs)) (cp c') (cc c') (OrdModel.cs c')) FR g5 hs (hcell hs sz t)); auto; try apply P5; cbn; tauto| |easy].
    intros [] g6 (P6 & R6). assert (P16 := pres_trans P15 P6). rewrite (c_hd C).
    assert (H6 : forall w, right g6 w hs).
    { intros w. assert (P56 := P6). assert (P46 := pres_trans P5 P6). assert (P36 := pres_trans P4 P46). assert (P26 := pres_trans P3 P36).
      destruct w; auto; [now apply P56|now apply P46|now apply P26|now apply P36]. }
    eapply wp_conseq.
    + apply (@for_pairs_in _ _ (fun done g' => pres g6 g' /\ (forall e, In e done -> In (fst e) lk) /\ forall e, In e done -> settled g' (fst e)) (fun _ => False) m).
      * intros done e g' Ie (A & D & B). assert (Ie' := Permutation_in _ (c_map C) Ie). apply in_map_iff in Ie' as (x & <- & Ix). cbn [fst snd].
        eapply wp_conseq; [apply o_copy_node_ok; auto; [apply A|]| |easy].
        -- intros Rk p Ip. apply A; auto. apply P16; auto.
        -- intros [] g'' (A' & B'). splits; [eapply pres_trans; eauto|intros e' [<-|I']; cbn; auto|]. intros e' [<-|I']; cbn; auto. eapply settled_pres; eauto.
      * splits; [apply pres_refl, P16|easy|easy].
    + intros [] g' (A & _ & B).
      assert (St : forall x, In x lk -> settled g' x).
      { intros x Ix. apply (B (x, f x)). rewrite <- in_rev. eapply Permutation_in; [symmetry; exact (c_map C)|]. apply in_map_iff. eauto. }
      apply right_all; [apply A|]. intros w p [<-|Ip]; [apply A; auto; now left|].
      destruct (c_of _ Ip) as (c & Ic & Hc). destruct (St p Ip) as (S1 & S2 & S3 & S4 & S5 & _ & _). destruct w; auto.
      * destruct (Nat.eq_dec (cl c) null) as [N|N]; [eapply S4; eauto|].
        destruct (child_l _ _ _ _ cells_nd Ic N) as (c' & I' & E'). assert (S := St _ (cells_lk _ _ I')). destruct S as (_ & _ & _ & _ & _ & S & _).
        rewrite <- E'. apply S with (c := c') (d := c); auto; [now apply get_in|congruence].
      * destruct (Nat.eq_dec (cr c) null) as [N|N]; [eapply S5; eauto|].
        destruct (child_r _ _ _ _ cells_nd Ic N) as (D & c' & I' & E'). assert (S := St _ (cells_lk _ _ I')). destruct S as (_ & _ & _ & _ & _ & _ & S).
        rewrite <- E'. apply S with (c := c') (d := c); auto; [now apply get_in|congruence].
    + easy.
Qed.
End Ord.
