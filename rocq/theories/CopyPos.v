(** Copying the links of sequenced and random access indices. *)
From Verif Require Import Prelude SeqModel SeqHeap Layer SeqIdx RndModel RndProofs RndIdx Copy CopyOrd.
Set Implicit Arguments.

Section Both.
Variable mfind : node -> option node.
Variable m : cmap.
Variable f : node -> node.
Variables hs hd : node.
Variable lk : list node.
Hypothesis C : copying mfind m f hs hd lk.

Lemma cp_nd : NoDup (null :: hs :: lk).
Proof. apply (nd_of_map f), (c_nd C). Qed.
Lemma cp_in_map e : In e m -> exists x, e = (x, f x) /\ In x lk.
Proof. intros I. apply (Permutation_in _ (c_map C)), in_map_iff in I as (x & <- & I). eauto. Qed.
Lemma cp_map_in x : In x lk -> In (x, f x) m.
Proof. intros I. eapply Permutation_in; [symmetry; exact (c_map C)|]. apply in_map_iff. eauto. Qed.
Lemma cp_hd x : In x lk -> f x <> hd.
Proof.
  intros I E. rewrite <- (c_hd C) in E. assert (x = hs).
  { eapply copying_inj; [exact C|right; now right|right; now left|exact E]. }
  subst. assert (N := cp_nd). inversion N as [|? ? _ N2]. inversion N2; auto.
Qed.
Lemma cp_nd' l : Permutation l lk -> NoDup (null :: hd :: List.map f l).
Proof.
  intros P. eapply NoDup_perm; [|exact (c_nd C)]. rewrite !map_cons, (c_null C), (c_hd C). do 2 apply perm_skip. apply Permutation_map. now symmetry.
Qed.

Section Sequenced.
Variables jn jp : node.
Variable x : sst.
Variable l : list node.
Hypothesis XL : seq_has hs x l.
Hypothesis PL : Permutation l lk.

Definition q_all (g : sst) : Prop := forall p, In p (hs :: lk) -> alloc g (f p).
Definition rn (g : sst) (p : node) : Prop := forall b, nx x p = Some b -> nx g (f p) = Some (f b).
Definition rp (g : sst) (p : node) : Prop := forall b, pr x p = Some b -> pr g (f p) = Some (f b).
Definition q_pres (g g' : sst) : Prop :=
  q_all g' /\ (forall p, In p (hs :: lk) -> rn g p -> rn g' p) /\ (forall p, In p (hs :: lk) -> rp g p -> rp g' p).
Lemma q_pres_trans g g' g'' : q_pres g g' -> q_pres g' g'' -> q_pres g g''.
Proof. intros (A & B & D) (A' & B' & D'). unfold q_pres. auto. Qed.
Lemma f_ne p q : In p (hs :: lk) -> In q (hs :: lk) -> p <> q -> f p <> f q.
Proof. intros Ip Iq N E. apply N. eapply copying_inj; [exact C|now right|now right|exact E]. Qed.
Lemma set_next_right g p b : q_all g -> In p (hs :: lk) -> nx x p = Some b ->
  wp (set_next (f p) (f b)) (fun _ g' => q_pres g g' /\ rn g' p) (fun _ => False) g.
Proof.
  intros A I E. destruct (A p I) as ((v & Hv) & _). unfold wp, set_next. rewrite Hv. unfold q_pres, rn, rp, q_all, alloc. cbn. splits.
  - intros q J. destruct (A q J) as ((w & Hw) & W2). split; auto. destruct (Nat.eq_dec q p) as [->|N]; [rewrite upd_eq; eauto|].
    rewrite upd_neq by (apply f_ne; auto). eauto.
  - intros q J H b' Hb'. destruct (Nat.eq_dec q p) as [->|N]; [rewrite upd_eq; congruence|]. rewrite upd_neq by (apply f_ne; auto). auto.
  - auto.
  - intros b' Hb'. rewrite upd_eq. congruence.
Qed.
Lemma set_prior_right g p b : q_all g -> In p (hs :: lk) -> pr x p = Some b ->
  wp (set_prior (f p) (f b)) (fun _ g' => q_pres g g' /\ rp g' p) (fun _ => False) g.
Proof.
  intros A I E. destruct (A p I) as (_ & (v & Hv)). unfold wp, set_prior. rewrite Hv. unfold q_pres, rn, rp, q_all, alloc. cbn. splits.
  - intros q J. destruct (A q J) as (W2 & (w & Hw)). split; auto. destruct (Nat.eq_dec q p) as [->|N]; [rewrite upd_eq; eauto|].
    rewrite upd_neq by (apply f_ne; auto). eauto.
  - auto.
  - intros q J H b' Hb'. destruct (Nat.eq_dec q p) as [->|N]; [rewrite upd_eq; congruence|]. rewrite upd_neq by (apply f_ne; auto). auto.
  - intros b' Hb'. rewrite upd_eq. congruence.
Qed.
Lemma q_copy_loop_ok rest : forall fuel org g, length rest < fuel -> adj (R x) (org :: rest ++ [hs]) -> ~ In hs rest ->
  incl (org :: rest) (hs :: lk) -> q_all g ->
  wp (q_copy_loop mfind hs x fuel org (f org))
    (fun _ g' => q_pres g g' /\ (forall a, In a (org :: rest) -> rn g' a) /\ (forall b, In b (rest ++ [hs]) -> rp g' b)) (fun _ => False) g.
Proof.
  induction rest as [|n rest IH]; intros fuel org g Lf A Nh I Ha; (destruct fuel as [|fuel]; [cbn in Lf; lia|]); cbn [q_copy_loop].
  - cbn [app adj] in A. destruct A as ((A1 & A2) & _). assert (Io : In org (hs :: lk)) by (apply I; now left).
    assert (Ih : In hs (hs :: lk)) by now left.
    eapply wp_from; [unfold get_next; rewrite A1; reflexivity|]. eapply wp_look; [exact C|exact Ih|].
    apply wp_bind. eapply wp_conseq; [apply set_next_right; eauto| |easy]. intros [] g1 (P1 & R1). apply wp_bind.
    eapply wp_conseq; [apply set_prior_right; eauto; apply P1| |easy]. intros [] g2 (P2 & R2). rewrite Nat.eqb_refl. apply wp_ret. splits.
    + eapply q_pres_trans; eauto.
    + intros a [<-|[]]. apply P2; auto.
    + intros a [<-|[]]. auto.
  - cbn [app] in A. destruct A as ((A1 & A2) & A). assert (Io : In org (hs :: lk)) by (apply I; now left).
    assert (Ih : In n (hs :: lk)) by (apply I; right; now left).
    eapply wp_from; [unfold get_next; rewrite A1; reflexivity|]. eapply wp_look; [exact C|exact Ih|].
    apply wp_bind. eapply wp_conseq; [apply set_next_right; eauto| |easy]. intros [] g1 (P1 & R1). apply wp_bind.
    eapply wp_conseq; [apply set_prior_right; eauto; apply P1| |easy]. intros [] g2 (P2 & R2).
    destruct (Nat.eqb_spec n hs) as [->|Nn]; [exfalso; apply Nh; now left|].
    eapply wp_conseq; [apply IH; auto| |easy].
    + cbn in Lf. lia.
    + intros J. apply Nh. now right.
    + intros a J. apply I. now right.
    + apply P2.
    + intros [] g3 (P3 & R3 & R3'). splits.
      * eapply q_pres_trans; [exact P1|]. eapply q_pres_trans; eauto.
      * intros a [<-|J]; auto. apply P3; auto. apply P2; auto.
      * intros a [<-|J]; auto. apply P3; auto.
Qed.

Lemma adj_right g z l0 : forall a, adj (R x) (a :: l0 ++ [z]) -> (forall p, In p (a :: l0) -> rn g p) -> (forall p, In p (l0 ++ [z]) -> rp g p) ->
  adj (R g) (List.map f (a :: l0 ++ [z])).
Proof.
  induction l0 as [|b l0 IH]; intros a (A & B) Rn Rp; cbn in *.
  - split; auto. destruct A as (A1 & A2). split; [apply Rn; auto|apply Rp; auto].
  - split; [|apply IH; auto]. destruct A as (A1 & A2). split; [apply Rn; auto|apply Rp; auto].
Qed.
Lemma q_copy_ok g : alloc g hd ->
  wp (q_copy mfind m hs hd jn jp x (length lk)) (fun _ g' => seq_has hd g' (List.map f l)) (fun _ => False) g.
Proof.
  intros Ag. unfold q_copy. apply wp_bind.
  destruct XL as (XR & XN & _). inversion XR as [|? ? XR1 _]; subst. cbn [concat app] in XN. rewrite !app_nil_r in XN.
  eapply wp_conseq.
  - apply (@for_pairs_in _ _ (fun done g' => alloc g' hd /\ forall e, In e done -> alloc g' (snd e)) (fun _ => False) m); [|split; [exact Ag|easy]].
    intros done e g' Ie (A & B). destruct (cp_in_map _ Ie) as (y & -> & Iy). unfold wp, q_place, alloc. cbn [nx pr fst snd].
    assert (X : forall p, alloc g' p -> (exists v, upd (nx g') (f y) (Some jn) p = Some v) /\ (exists v, upd (pr g') (f y) (Some jp) p = Some v)).
    { intros p ((v & Hv) & (w & Hw)). destruct (Nat.eq_dec p (f y)) as [->|N]; [rewrite !upd_eq; eauto|]. rewrite !upd_neq by auto. eauto. }
    split; auto. intros e' [<-|I']; cbn; auto. rewrite !upd_eq. eauto.
  - intros [] g1 (A & B). rewrite <- (c_hd C). eapply wp_conseq; [apply (@q_copy_loop_ok l)| |easy].
    + rewrite (Permutation_length PL). lia.
    + exact XR1.
    + now inversion XN.
    + intros a [<-|Ia]; [now left|]. right. eapply Permutation_in; eauto.
    + intros p [<-|Ip]; [now rewrite (c_hd C)|]. apply (B (p, f p)). rewrite <- in_rev. now apply cp_map_in.
    + intros [] g2 (_ & Rn & Rp). rewrite (c_hd C). unfold seq_has, wf. splits; [|cbn; rewrite !app_nil_r; assert (Nd := cp_nd' PL); now inversion Nd|constructor].
      constructor; [|constructor]. cbn [ring]. rewrite <- (c_hd C). change (adj (R g2) (List.map f (hs :: l) ++ List.map f [hs])). rewrite <- map_app.
      apply adj_right; auto.
  - easy.
Qed.
End Sequenced.

Section RandomAccess.
Variable ju : nat.
Variable x : rst.
Variable l : list node.
Hypothesis XL : rnd_has hs x l.
Hypothesis PL : Permutation l lk.

(** the array of the new index, of which the first [k] slots have been written *)
Definition r_part (k : nat) (g : rst) : Prop :=
  rbs g = 0 /\ rsz g = length l /\ rcap g = length l /\ rbrk g = S (length l) /\
  slot g (length l) = Some hd /\ rup g hd = Some (length l) /\
  (forall i, i <= length l -> slot g i <> None) /\ (forall p, S (length l) < p -> slot g p = None) /\
  (forall y, In y l -> rup g (f y) <> None) /\
  (forall i y, i < k -> nth_error l i = Some y -> slot g i = Some (f y) /\ rup g (f y) = Some i).

Lemma nth_l i y : nth_error l i = Some y -> i < length l /\ In y l.
Proof. intros E. split; [apply nth_error_Some; congruence|eapply nth_error_In; eauto]. Qed.
Lemma r_copy_loop_ok c : forall k g, k + c = length l -> r_part k g ->
  wp (r_copy_loop mfind x c (rbs x + k) k) (fun _ g' => r_part (length l) g') (fun _ => False) g.
Proof.
  induction c as [|c IH]; intros k g E P; cbn [r_copy_loop].
  - apply wp_ret. now replace (length l) with k by lia.
  - destruct (nth_error l k) as [y|] eqn:Ey; [|apply nth_error_None in Ey; lia].
    assert (Iy : In y l) by (eapply nth_error_In; eauto). assert (Iy' : In y lk) by (eapply Permutation_in; eauto).
    eapply wp_from.
    { unfold rd. rewrite (a_slot XL k (x := y)); [reflexivity|]. rewrite nth_error_app1; [exact Ey|lia]. }
    eapply wp_look; [exact C|right; exact Iy'|].
    destruct P as (P1 & P2 & P3 & P4 & P5 & P6 & P7 & P8 & P9 & P10).
    apply wp_bind. unfold put, wp, bind, RndModel.wr, rd, set_up. destruct (slot g k) eqn:Sk; [|exfalso; apply (P7 k); [lia|auto]].
    cbn [slot]. rewrite upd_eq. cbn [rup]. destruct (rup g (f y)) eqn:Uy; [|exfalso; now apply (P9 y)].
    rewrite <- plus_n_Sm in E. rewrite <- Nat.add_assoc, Nat.add_1_r. apply (IH (S k)); [lia|].
    unfold r_part. cbn. splits; auto.
    + rewrite upd_neq; auto. lia.
    + rewrite upd_neq; auto. intros X. symmetry in X. now apply (@cp_hd _ Iy').
    + intros i Li. destruct (Nat.eq_dec i k) as [->|N]; [rewrite upd_eq|rewrite upd_neq by auto; auto]. discriminate.
    + intros p Lp. rewrite upd_neq by lia. auto.
    + intros z Iz. destruct (Nat.eq_dec (f z) (f y)) as [->|N]; [rewrite upd_eq; discriminate|rewrite upd_neq by auto; auto].
    + intros i z Li Ez. destruct (Nat.eq_dec i k) as [->|N].
      * assert (z = y) by congruence. subst z. now rewrite !upd_eq.
      * rewrite !upd_neq; auto; [apply P10; [lia|auto]|]. intros X. apply N.
        assert (Iz : In z l) by (eapply nth_error_In; eauto).
        assert (z = y). { eapply copying_inj; [exact C|do 2 right; eapply Permutation_in; eauto|do 2 right; auto|auto]. }
        subst z. assert (ND : NoDup l). { eapply NoDup_perm; [symmetry; exact PL|]. assert (X' := cp_nd). now do 2 apply NoDup_cons_iff in X' as (_ & X'). }
        eapply NoDup_nth_error; [exact ND| |congruence]. apply nth_error_Some. congruence.
Qed.
Lemma r_copy_ok g n : n = length lk ->
  slot g = (fun p => if p =? n then Some hd else if p <? n then Some null else None) ->
  rup g = (fun y => if y =? hd then Some n else None) -> rsz g = n -> rcap g = n -> rbs g = 0 -> rbrk g = S n ->
  wp (r_copy mfind m ju x) (fun _ g' => rnd_has hd g' (List.map f l)) (fun _ => False) g.
Proof.
  intros En G1 G2 G3 G4 G5 G6. assert (El : length l = n) by (rewrite En; now apply Permutation_length).
  unfold r_copy. apply wp_bind. eapply wp_conseq.
  - apply (@for_pairs_in _ _ (fun done g' => slot g' = slot g /\ rsz g' = n /\ rcap g' = n /\ rbs g' = 0 /\ rbrk g' = S n /\ rup g' hd = Some n /\
      forall e, In e done -> rup g' (snd e) <> None) (fun _ => False) m).
    + intros done e g' Ie (A & B & D & F & G & H & K). destruct (cp_in_map _ Ie) as (y & -> & Iy). unfold wp, n_place. cbn [slot rup rsz rcap rbs rbrk fst snd].
      splits; auto.
      * rewrite upd_neq; auto. intros X. symmetry in X. now apply (@cp_hd _ Iy).
      * intros e' [<-|I']; cbn; [rewrite upd_eq; discriminate|]. destruct (Nat.eq_dec (snd e') (f y)) as [->|N]; [rewrite upd_eq; discriminate|].
        rewrite upd_neq by auto. auto.
    + splits; auto; try easy. rewrite G2. now rewrite Nat.eqb_refl.
  - intros [] g1 (A & B & D & F & G & H & K).
    eapply wp_from; [unfold a_begin; reflexivity|]. eapply wp_from; [unfold a_end; reflexivity|].
    eapply wp_bind_ret; [unfold a_begin; reflexivity|]. rewrite F.
    assert (Lx := a_len XL). rewrite app_length in Lx. cbn in Lx.
    replace (rbs x + rsz x - rbs x) with (length l) by lia.
    assert (W := @r_copy_loop_ok (length l) 0 g1). rewrite Nat.add_0_r in W. eapply wp_conseq; [apply W| |easy]; auto.
    + unfold r_part. rewrite A, G1, El. splits; auto; try lia.
      * now rewrite Nat.eqb_refl.
      * intros i Li. destruct (i =? n) eqn:E1; [discriminate|]. apply Nat.eqb_neq in E1. destruct (Nat.ltb_spec i n); [discriminate|lia].
      * intros p Lp. destruct (Nat.eqb_spec p n); [lia|]. destruct (Nat.ltb_spec p n); [lia|auto].
      * intros y Iy. apply (K (y, f y)). rewrite <- in_rev. apply cp_map_in. eapply Permutation_in; eauto.
    + intros [] g2 (P1 & P2 & P3 & P4 & P5 & P6 & P7 & P8 & P9 & P10).
      assert (Ne : forall i y, nth_error (List.map f l ++ [hd]) i = Some y -> slot g2 i = Some y /\ rup g2 y = Some i).
      { intros i y E. destruct (Nat.lt_ge_cases i (length l)) as [Li|Li].
        - rewrite nth_error_app1 in E by now rewrite map_length. rewrite nth_error_map in E. destruct (nth_error l i) as [z|] eqn:Ez; [|easy].
          cbn in E. injection E as <-. now apply P10.
        - rewrite nth_error_app2 in E by now rewrite map_length. rewrite map_length in E.
          destruct (i - length l) as [|k] eqn:Ek; cbn in E; [|now destruct k]. injection E as <-. replace i with (length l) by lia. auto. }
      assert (ND := cp_nd' PL). constructor.
      * intros i y E. rewrite P1. now apply Ne.
      * intros i y E. rewrite P1. now apply Ne.
      * rewrite app_length, map_length, P2. cbn. lia.
      * lia.
      * intros i Li. rewrite P1. apply P7. lia.
      * lia.
      * intros p Lp. apply P8. lia.
      * eapply NoDup_perm; [apply Permutation_cons_append|]. now inversion ND.
      * intros I. inversion ND as [|? ? N1 _]. apply N1. eapply Permutation_in; [symmetry; apply Permutation_cons_append|exact I].
  - easy.
Qed.
End RandomAccess.
End Both.
