(** Random access indices: storage management, insertion and erasure, rearrangement, splice. *)
From Verif Require Import Prelude Layer LayerBase RndModel RndProofs RndRot RndOps.
Set Implicit Arguments.
Local Arguments Nat.ltb : simpl never.
Local Arguments Nat.leb : simpl never.

(** ** a general way to establish a new array *)
Definition with_sz (r : rst) (n : nat) : rst := mkR (slot r) (rup r) n (rcap r) (rbs r) (rbrk r) (rtk r).
Lemma wrt_gen r0 r (W : nat -> Prop) f f' n :
  arr r0 f -> wrt r0 r (tgt r0 f') W -> NoDup f' -> ~ In null f' -> length f' = S n -> n <= rcap r0 ->
  (forall i x, nth_error f' i = Some x -> ~ W (rbs r0 + i) -> nth_error f i = Some x) ->
  (forall p, W p -> exists i, p = rbs r0 + i /\ i < length f') ->
  (forall i, {W (rbs r0 + i)} + {~ W (rbs r0 + i)}) ->
  arr (with_sz r n) f'.
Proof.
  intros A H N' Nn Ln Cn HU HW Dec. split; cbn.
  - intros i x E. rewrite (w_bs H). destruct (Dec i) as [Wi|Nw].
    + rewrite <- (tgt_at r0 f' i E). now apply (w_in H).
    + rewrite (w_out H _ Nw). apply (a_slot A). auto.
  - intros i x E. rewrite (w_bs H). destruct (Dec i) as [Wi|Nw].
    + rewrite <- (tgt_at r0 f' i E). now apply (w_in H).
    + rewrite (w_up H).
      * apply (a_up A). auto.
      * intros p Wp Ep. destruct (HW p Wp) as (j & -> & Lj).
        destruct (nth_error f' j) as [y|] eqn:Ej; [|apply nth_error_None in Ej; lia].
        rewrite (tgt_at r0 f' j Ej) in Ep. subst y.
        assert (j = i) by (eapply (nth_inj (f := f')); eauto). subst. easy.
  - exact Ln.
  - rewrite (w_cap H). exact Cn.
  - intros i I. rewrite (w_bs H). rewrite (w_cap H) in I. apply (w_al H), (a_all A), I.
  - rewrite (w_bs H), (w_cap H), (w_brk H). apply A.
  - intros p Lp. rewrite (w_brk H) in Lp. rewrite (w_out H); [now apply (a_new A)|].
    intros Wp. destruct (HW p Wp) as (j & -> & Lj). rewrite Ln in Lj.
    assert (Bk := a_brk A). lia.
  - exact N'.
  - exact Nn.
Qed.

(** ** growing and shrinking *)
Lemma transfer_wrt r0 F lo : forall l p0 p1 r,
  wrt r0 r F (span lo p1) -> lo <= p1 ->
  (forall i x, nth_error l i = Some x ->
     slot r0 (p0 + i) = Some x /\ F (p1 + i) = x /\ slot r0 (p1 + i) <> None /\ rup r0 x <> None) ->
  (p0 + length l <= lo) ->
  (forall p q, lo <= p < p1 + length l -> lo <= q < p1 + length l -> F p = F q -> p = q) ->
  wp (transfer (length l) p0 p1) (fun _ r' => wrt r0 r' F (span lo (p1 + length l))) (fun _ => False) r.
Proof.
  induction l as [|x l IH]; intros p0 p1 r H L G D Inj; cbn [length transfer].
  - apply wp_ret. now rewrite Nat.add_0_r.
  - destruct (G 0 x eq_refl) as (Sx & Fx & Al & Up). rewrite Nat.add_0_r in Sx, Fx, Al. cbn [length] in D, Inj.
    eapply wp_rdw; [exact H|unfold span; lia|exact Sx|].
    eapply wp_put; [exact H|auto|exact Al|exact Up|..].
    + unfold span. intros q Lq. apply Inj; lia.
    + intros r' H'. eapply wp_conseq; [apply (IH (p0 + 1) (p1 + 1) r')| |auto].
      * eapply wrt_ext; [exact H'|]. unfold span. lia.
      * lia.
      * intros i y Ey. replace (p0 + 1 + i) with (p0 + S i) by lia. replace (p1 + 1 + i) with (p1 + S i) by lia.
        apply G. exact Ey.
      * lia.
      * intros p q Lp Lq. apply Inj; lia.
      * intros ? r2 H2. cbn [length]. replace (p1 + S (length l)) with (p1 + 1 + length l) by lia. exact H2.
Qed.

Section Th.
Variable throws : nat -> bool.

Theorem set_capacity_ok c r f : arr r f -> rsz r <= c ->
  wp (set_capacity throws c)
     (fun _ r' => throws (rtk r) = false /\ rtk r' = S (rtk r) /\ arr r' f /\ rsz r' = rsz r /\ rcap r' = c /\
        (forall x, rup r x <> None <-> rup r' x <> None) /\
        (forall x, ~ In x f -> rup r' x = rup r x))
     (fun r' => throws (rtk r) = true /\ r' = adv_tk r (S (rtk r))) r.
Proof.
  intros A Lc. unfold set_capacity, new_space. apply wp_bind. apply wp_rtick; intros T; [|auto].
  set (b := S (rbrk (adv_tk r (S (rtk r))))).
  set (r1 := mkR (fun p => if (b <=? p) && (p <? b + (c + 1)) then Some null else slot r p)
                 (rup r) (rsz r) (rcap r) (rbs r) (b + (c + 1)) (S (rtk r))).
  change (wp (fun r0 => Ret b r1) (fun (a : nat) (s : rst) => wp (b0 <- a_begin;; n <- get_sz;; c0 <- get_cap;;
    transfer (n + 1) b0 a;;; (fun r0 => Ret tt (mkR (slot r0) (rup r0) (rsz r0) c a (rbrk r0) (rtk r0)));;;
    free_space b0 (c0 + 1)) (fun _ r' => throws (rtk r) = false /\ rtk r' = S (rtk r) /\ arr r' f /\ rsz r' = rsz r /\ rcap r' = c /\
        (forall x, rup r x <> None <-> rup r' x <> None) /\
        (forall x, ~ In x f -> rup r' x = rup r x))
     (fun r' => throws (rtk r) = true /\ r' = adv_tk r (S (rtk r))) s) (fun r' => throws (rtk r) = true /\ r' = adv_tk r (S (rtk r))) (adv_tk r (S (rtk r)))).
  eapply wp_det; [reflexivity|]. repeat (eapply wp_bind_ret; [reflexivity|]). cbn [rbs rsz rcap r1].
  assert (Ln := a_len A). assert (Cp := a_cap A). assert (Bk := a_brk A).
  replace (rsz r + 1) with (length f) by lia. unfold b in *. cbn [rbrk adv_tk] in *. clear b. set (b := S (rbrk r)) in *.
  assert (Eb : b = S (rbrk r)) by reflexivity. clearbody b.
  set (F := fun p => nth (p - b) f null).
  assert (FA : forall i x, nth_error f i = Some x -> F (b + i) = x).
  { intros i x E. unfold F. replace (b + i - b) with i by lia. now apply nth_error_nth. }
  apply wp_bind. eapply wp_conseq; [apply (@transfer_wrt r1 F b f (rbs r) b r1)| |easy].
  - apply wrt_refl. unfold span. lia.
  - lia.
  - intros i x E. assert (Li : i < length f) by (apply nth_error_Some; congruence). splits.
    + cbn. destruct (Nat.leb_spec b (rbs r + i)); [lia|]. apply (a_slot A _ E).
    + now apply FA.
    + cbn. destruct (Nat.leb_spec b (b + i)); [|lia]. destruct (Nat.ltb_spec (b + i) (b + (c + 1))); [easy|lia].
    + cbn. rewrite (a_up A _ E). easy.
  - lia.
  - intros p q Lp Lq E. unfold F in E. assert (N := a_nd A). rewrite NoDup_nth in N. apply N in E; lia.
  - intros ? r2 H2. cbv beta in H2. eapply wp_bind_ret; [reflexivity|]. eapply wp_det; [reflexivity|]. cbn.
    assert (U2 : forall x, ~ In x f -> rup r2 x = rup r x).
    { intros x Nx. rewrite (w_up H2); [reflexivity|]. intros p Wp E. apply Nx. unfold span in Wp.
      rewrite <- E. unfold F. apply nth_In. lia. }
    assert (I2 : forall i x, nth_error f i = Some x -> slot r2 (b + i) = Some x /\ rup r2 x = Some (b + i)).
    { intros i x E. assert (Li : i < length f) by (apply nth_error_Some; congruence).
      rewrite <- (FA i x E) at 1 2. apply (w_in H2). unfold span. lia. }
    splits; auto.
    + apply (w_tk H2).
    + split; cbn; auto.
      * intros i x E. assert (Li : i < length f) by (apply nth_error_Some; congruence).
        destruct (Nat.ltb_spec (b + i) (rbs r + (rcap r + 1))); [lia|].
        rewrite Bool.andb_false_r. now apply I2.
      * intros i x E. now apply I2.
      * rewrite (w_sz H2). exact Ln.
      * rewrite (w_sz H2). exact Lc.
      * intros i Li. destruct (Nat.ltb_spec (b + i) (rbs r + (rcap r + 1))); [lia|].
        rewrite Bool.andb_false_r. apply (w_al H2). cbn. destruct (Nat.leb_spec b (b + i)); [|lia].
        destruct (Nat.ltb_spec (b + i) (b + (c + 1))); [easy|lia].
      * rewrite (w_brk H2). cbn. lia.
      * rewrite (w_brk H2). cbn. intros p Lp. destruct ((rbs r <=? p) && (p <? rbs r + (rcap r + 1))); [easy|].
        rewrite (w_out H2) by (unfold span; lia). cbn. destruct (Nat.ltb_spec p (b + (c + 1))); [lia|].
        rewrite Bool.andb_false_r. apply (a_new A). lia.
      * apply (a_nd A).
      * apply (a_nn A).
    + rewrite (w_sz H2). reflexivity.
    + intros x. split; intros H.
      * now apply (w_none H2).
      * destruct (in_dec Nat.eq_dec x f) as [I|N]; [now apply (arr_in x A)|]. rewrite <- U2; auto.
Qed.

Lemma self_tk r : r = adv_tk r (rtk r).
Proof. now destruct r. Qed.

(** what an operation on the storage leaves as it was *)
Definition same_arr (r r' : rst) (f : list node) : Prop :=
  arr r' f /\ rsz r' = rsz r /\ (forall x, rup r x <> None <-> rup r' x <> None) /\
  (forall x, ~ In x f -> rup r' x = rup r x).
Lemma same_refl r f : arr r f -> same_arr r r f.
Proof. unfold same_arr. intros A. splits; auto. tauto. Qed.

Theorem reserve_ok c r f : arr r f ->
  wp (reserve throws c)
     (fun _ r' => quiet throws (rtk r) (rtk r') /\ same_arr r r' f /\ rcap r' = Nat.max (rcap r) c)
     (fun r' => throws (rtk r) = true /\ r' = adv_tk r (S (rtk r))) r.
Proof.
  intros A. unfold reserve. eapply wp_bind_ret; [reflexivity|]. destruct (Nat.ltb_spec (rcap r) c) as [L|L].
  - assert (Cp := a_cap A). eapply wp_conseq; [apply (@set_capacity_ok c r f A); lia| |auto].
    intros ? r' (T & Tk & A' & Sz & Cap & U1 & U2). rewrite Tk. split; [now apply quiet_S|]. split; [|lia].
    unfold same_arr. auto.
  - apply wp_ret. split; [apply quiet_refl|]. split; [now apply same_refl|lia].
Qed.

Theorem room_for_one_ok r f : arr r f ->
  wp (room_for_one throws)
     (fun _ r' => quiet throws (rtk r) (rtk r') /\ same_arr r r' f /\ rsz r' < rcap r')
     (fun r' => throws (rtk r) = true /\ r' = adv_tk r (S (rtk r))) r.
Proof.
  intros A. assert (Cp := a_cap A). unfold room_for_one. do 2 (eapply wp_bind_ret; [reflexivity|]).
  destruct (Nat.eqb_spec (rsz r) (rcap r)) as [E|N].
  - eapply wp_conseq; [apply (@reserve_ok _ r f A)| |auto].
    intros ? r' (Q & S & C). splits; auto. destruct S as (_ & Sz & _).
    destruct (Nat.leb_spec (rcap r) 10); [lia|]. assert (rcap r / 2 <> 0) by (intros Z; apply Nat.div_small_iff in Z; lia). lia.
  - apply wp_ret. split; [apply quiet_refl|]. split; [now apply same_refl|lia].
Qed.

Theorem shrink_to_fit_ok r f : arr r f ->
  wp (shrink_to_fit throws)
     (fun _ r' => quiet throws (rtk r) (rtk r') /\ same_arr r r' f /\ rcap r' = rsz r')
     (fun r' => throws (rtk r) = true /\ r' = adv_tk r (S (rtk r))) r.
Proof.
  intros A. assert (Cp := a_cap A). unfold shrink_to_fit. do 2 (eapply wp_bind_ret; [reflexivity|]).
  destruct (Nat.ltb_spec (rsz r) (rcap r)) as [L|L].
  - eapply wp_conseq; [apply (@set_capacity_ok (rsz r) r f A); lia| |auto].
    intros ? r' (T & Tk & A' & Sz & Cap & U1 & U2). rewrite Tk. split; [now apply quiet_S|]. split; [|lia].
    unfold same_arr. auto.
  - apply wp_ret. split; [apply quiet_refl|]. split; [now apply same_refl|lia].
Qed.
End Th.

(** ** adding and removing one node *)
Theorem push_back_ok r l h x : arr r (l ++ [h]) -> rsz r < rcap r -> rup r x <> None -> ~ In x (l ++ [h]) -> x <> null ->
  exists r', push_back x r = Ret tt r' /\ arr r' (l ++ [x; h]) /\ rsz r' = S (rsz r) /\ rcap r' = rcap r /\ rtk r' = rtk r /\
    (forall y, rup r y <> None <-> rup r' y <> None) /\ (forall y, ~ In y (l ++ [x; h]) -> rup r' y = rup r y).
Proof.
  intros A Rm Ux Nx Xn. assert (Ln := a_len A). rewrite app_length in Ln. cbn in Ln.
  set (e := rbs r + rsz r). assert (Le : e = rbs r + length l) by (unfold e; lia).
  assert (Sh : slot r e = Some h) by (rewrite Le; apply (arr_mid A)).
  assert (Uh : rup r h <> None) by (apply (arr_in h A); rewrite in_app_iff; cbn; auto).
  assert (Se : slot r (e + 1) <> None) by (rewrite Le, <- Nat.add_assoc; apply (a_all A); lia).
  assert (NE : x <> h) by (intros ->; apply Nx; rewrite in_app_iff; cbn; auto).
  exists (with_sz (put_st (put_st r (e + 1) h) e x) (S (rsz r))). split.
  { unfold push_back. unfold bind, a_end. fold e. unfold rd at 1. rewrite Sh. unfold wr at 1. destruct (slot r (e + 1)) as [z|] eqn:Ez; [|easy].
    unfold rd at 1. cbn. rewrite upd_eq. unfold set_up at 1. cbn. destruct (rup r h) as [u|] eqn:Eu; [|easy].
    unfold wr. cbn. rewrite upd_neq by lia. rewrite Sh. unfold rd. cbn. rewrite upd_eq. unfold set_up. cbn.
    rewrite upd_neq by auto. destruct (rup r x); [reflexivity|easy]. }
  assert (N' : NoDup (l ++ [x; h])).
  { assert (N := a_nd A). apply (NoDup_perm (l := x :: l ++ [h])); [|now constructor]. perm. }
  assert (T1 : tgt r (l ++ [x; h]) (e + 1) = h).
  { rewrite Le, <- Nat.add_assoc. apply tgt_at. rewrite nth_app_r by lia. replace (length l + 1 - length l) with 1 by lia. reflexivity. }
  assert (T2 : tgt r (l ++ [x; h]) e = x) by (rewrite Le; apply tgt_at; now rewrite nth_app_r, Nat.sub_diag by lia).
  assert (H : wrt r (put_st (put_st r (e + 1) h) e x) (tgt r (l ++ [x; h])) (fun q => (False \/ q = e + 1) \/ q = e)).
  { set (F := tgt r (l ++ [x; h])) in *. clearbody F. rewrite <- T1, <- T2. apply wrt_put; [apply wrt_put|].
    - apply wrt_refl. auto.
    - easy.
    - intros q [[]| ->] E. congruence. }
  splits; auto.
  - eapply (wrt_gen A H N').
    + intros I. apply in_app_iff in I as [I|[I|[I|[]]]]; auto; apply (a_nn A); rewrite in_app_iff; cbn; auto.
    + rewrite app_length. cbn. lia.
    + lia.
    + intros i y E Nw. assert (Li : i < length (l ++ [x; h])) by (apply nth_error_Some; congruence).
      rewrite app_length in Li. cbn in Li. rewrite nth_app_l in * by lia. exact E.
    + intros p [[[]| ->]| ->]; rewrite app_length; cbn; [exists (S (length l))|exists (length l)]; lia.
    + intros i. destruct (Nat.eq_dec (rbs r + i) e), (Nat.eq_dec (rbs r + i) (e + 1)); tauto.
  - intros y. cbn. unfold upd. destruct (Nat.eqb_spec y x) as [->|]; [easy|]. destruct (Nat.eqb_spec y h) as [->|]; easy.
  - intros y Ny. cbn. rewrite !upd_neq; auto; intros ->; apply Ny; rewrite in_app_iff; cbn; auto.
Qed.

Theorem erase_ok r a x b h : arr r (a ++ x :: b ++ [h]) ->
  wp (erase x) (fun _ r' => arr r' (a ++ b ++ [h]) /\ rsz r' = rsz r - 1 /\ rcap r' = rcap r /\ rtk r' = rtk r /\
                  (forall y, rup r y <> None <-> rup r' y <> None) /\
                  (forall y, ~ In y (b ++ [h]) -> rup r' y = rup r y)) (fun _ => False) r.
Proof.
  intros A. unfold erase. assert (Ln := a_len A). rewrite app_length in Ln. cbn in Ln. rewrite app_length in Ln. cbn in Ln.
  eapply wp_up; [apply (up_mid A)|]. eapply wp_bind_ret; [reflexivity|].
  set (p := rbs r + length a). set (e := rbs r + rsz r). unfold extract. replace (e + 1 - 1) with e by lia.
  set (f := a ++ x :: b ++ [h]) in *. set (f' := a ++ b ++ [h]).
  assert (N' : NoDup f') by (eapply NoDup_remove_1; apply (a_nd A)).
  assert (Lf' : length f' = length a + length b + 1) by (unfold f'; rewrite !app_length; cbn; lia).
  apply wp_bind. eapply wp_conseq; [apply (@extract_loop_ok r (tgt r f') p e)| |easy].
  - apply wrt_refl. unfold span. lia.
  - unfold p, e. lia.
  - unfold p, e. lia.
  - intros q Lq. remember (q - rbs r) as i eqn:Ei. replace q with (rbs r + i) by (unfold p in *; lia).
    assert (E : nth_error f (i + 1) = nth_error f' i).
    { unfold f, f'. rewrite !(nth_app_r a) by (unfold p in *; lia). replace (i + 1 - length a) with (S (i - length a)) by (unfold p in *; lia). reflexivity. }
    destruct (arr_nth (i := i + 1) A) as (z & E1 & E2 & E3); [unfold f, e in *; rewrite app_length; cbn; rewrite app_length; cbn; lia|].
    rewrite E in E1. rewrite (tgt_at r f' i E1). rewrite <- Nat.add_assoc. split; [exact E2|congruence].
  - intros q Lq. replace q with (rbs r + (q - rbs r)) by (unfold p in *; lia). apply (a_all A). assert (C := a_cap A). unfold e in *. lia.
  - intros q q' Lq Lq'. apply tgt_inj; auto; unfold p, e in *; lia.
  - intros ? r1 H1. cbv beta in H1. eapply wp_bind_ret; [reflexivity|]. eapply wp_det; [reflexivity|].
    assert (Z1 := w_sz H1). splits.
    + rewrite Z1. eapply (wrt_gen A H1 N').
      * intros I. apply (a_nn A). unfold f, f' in *. rewrite in_app_iff in *. cbn. tauto.
      * lia.
      * assert (C := a_cap A). lia.
      * intros i y E Nw. unfold span in Nw. assert (Li : i < length f') by (apply nth_error_Some; congruence).
        unfold f, f' in *. rewrite nth_app_l in * by (unfold p, e in *; lia). exact E.
      * unfold span. intros q Lq. exists (q - rbs r). unfold p, e in *. lia.
      * intros i. apply span_dec.
    + cbn. lia.
    + cbn. apply (w_cap H1).
    + cbn. apply (w_tk H1).
    + cbn. intros y. split; [apply (w_none H1)|]. intros Hy.
      destruct (in_dec Nat.eq_dec y f) as [I|N]; [now apply (arr_in y A)|]. rewrite <- (w_up H1); auto.
      intros q Wq E. apply N. unfold span, tgt in *. rewrite <- E. assert (In (nth (q - rbs r) f' null) f') by (apply nth_In; unfold p, e in *; lia).
      unfold f, f' in *. rewrite in_app_iff in *. cbn. tauto.
    + cbn. intros y Ny. apply (w_up H1). intros q Wq E. apply Ny. unfold span, tgt in *. rewrite <- E.
      unfold f'. rewrite app_nth2 by (unfold p in *; lia). apply nth_In. rewrite app_length. cbn. unfold p, e in *. lia.
Qed.

Theorem a_clear_ok r l h : arr r (l ++ [h]) ->
  exists r', a_clear r = Ret tt r' /\ arr r' [h] /\ rsz r' = 0 /\ rcap r' = rcap r /\ rtk r' = rtk r /\
    (forall y, y <> h -> rup r' y = rup r y).
Proof.
  intros A. assert (Ln := a_len A). rewrite app_length in Ln. cbn in Ln.
  assert (Sh : slot r (rbs r + rsz r) = Some h) by (replace (rsz r) with (length l) by lia; apply (arr_mid A)).
  assert (Uh : rup r h <> None) by (apply (arr_in h A); rewrite in_app_iff; cbn; auto).
  assert (Sb : slot r (rbs r) <> None) by (rewrite <- (Nat.add_0_r (rbs r)); apply (a_all A); lia).
  exists (with_sz (put_st r (rbs r) h) 0). split.
  { unfold a_clear, bind, a_begin, a_end, rd at 1. rewrite Sh. unfold wr. destruct (slot r (rbs r)); [|easy].
    unfold rd. cbn. rewrite upd_eq. unfold set_up. cbn. destruct (rup r h); [reflexivity|easy]. }
  assert (T1 : tgt r [h] (rbs r) = h) by (unfold tgt; now rewrite Nat.sub_diag).
  assert (H : wrt r (put_st r (rbs r) h) (tgt r [h]) (fun q => False \/ q = rbs r)).
  { set (F := tgt r [h]) in *. clearbody F. rewrite <- T1. apply wrt_put; [|easy]. apply wrt_refl. auto. }
  splits; auto.
  - eapply (wrt_gen A H).
    + constructor; [easy|constructor].
    + intros [I|[]]. apply (a_nn A). rewrite in_app_iff. cbn. auto.
    + reflexivity.
    + lia.
    + intros i y E Nw. destruct i; [|destruct i; discriminate]. exfalso. apply Nw. lia.
    + intros p [[]| ->]. exists 0. cbn. lia.
    + intros i. destruct (Nat.eq_dec (rbs r + i) (rbs r)); tauto.
  - intros y Ny. cbn. now rewrite upd_neq.
Qed.

(** ** rearrange *)
Lemma swap_self r a x b : arr r (a ++ x :: b) ->
  exists r', swap_slots (rbs r + length a) (rbs r + length a) r = Ret tt r' /\ arr r' (a ++ x :: b) /\ keeps r r' /\ rtk r' = rtk r.
Proof.
  intros A. set (p := rbs r + length a). assert (Sx := arr_mid A). fold p in Sx.
  assert (Ux : rup r x <> None) by (rewrite (up_mid A); easy).
  exists (put_st (put_st r p x) p x). split; [now apply swap_eq|].
  assert (T : tgt r (a ++ x :: b) p = x) by (apply tgt_at; now rewrite nth_app_r, Nat.sub_diag by lia).
  assert (H : wrt r (put_st (put_st r p x) p x) (tgt r (a ++ x :: b)) (fun q => (False \/ q = p) \/ q = p)).
  { set (F := tgt r (a ++ x :: b)) in *. clearbody F. rewrite <- T. apply wrt_put; [apply wrt_put|]; [apply wrt_refl|..]; tauto. }
  split; [|split; [now apply keeps_wrt in H|apply (w_tk H)]].
  eapply (wrt_done A H).
  - reflexivity.
  - auto.
  - intros q [[[]| ->]| ->]; exists (length a); rewrite app_length; cbn; split; auto; lia.
  - intros i. destruct (Nat.eq_dec (rbs r + i) p); tauto.
Qed.

Lemma rearrange_loop_ok h : forall fs r pre rest,
  arr r (pre ++ rest ++ [h]) -> Permutation fs rest ->
  wp (rearrange_loop (length rest) (rbs r + length pre) fs)
     (fun _ r' => arr r' (pre ++ fs ++ [h]) /\ keeps r r' /\ rtk r' = rtk r) (fun _ => False) r.
Proof.
  induction fs as [|v fs IH]; intros r pre rest A P.
  - apply Permutation_nil in P. subst. apply wp_ret. split; [exact A|]. split; [apply keeps_refl|auto].
  - assert (Iv : In v rest) by (eapply Permutation_in; [exact P|left; auto]).
    apply in_split in Iv as (u & w & ->).
    replace (length (u ++ v :: w)) with (S (length (u ++ w))) by (rewrite !app_length; cbn; lia). cbn [rearrange_loop].
    assert (P' : Permutation fs (u ++ w)) by (eapply Permutation_cons_inv; rewrite P; symmetry; apply Permutation_middle).
    assert (Av : arr r ((pre ++ u) ++ v :: w ++ [h])) by (rewrite <- !app_assoc in *; exact A).
    eapply wp_up; [apply (up_mid Av)|].
    assert (Sw : exists r' rest', swap_slots (rbs r + length pre) (rbs r + length (pre ++ u)) r = Ret tt r' /\
       arr r' ((pre ++ [v]) ++ rest' ++ [h]) /\ Permutation rest' (u ++ w) /\ keeps r r' /\ rtk r' = rtk r).
    { destruct u as [|y u].
      - rewrite app_nil_r in *. destruct (swap_self _ _ _ Av) as (r' & E & A' & K & T). exists r', w. splits; auto; try apply K.
        now rewrite <- app_assoc.
      - destruct (@swap_arr r pre y u v (w ++ [h]) (rbs r + length pre) (rbs r + length (pre ++ y :: u))) as (r' & E & A' & K & T).
        + rewrite <- app_assoc in Av. exact Av.
        + left. rewrite app_length. cbn. lia.
        + exists r', (u ++ y :: w). splits; auto; try apply K.
          * rewrite <- !app_assoc. exact A'.
          * perm. }
    destruct Sw as (r' & rest' & E & A' & Pr & K & T). eapply wp_bind_ret; [exact E|].
    assert (B : rbs r' = rbs r) by apply K. rewrite <- (Permutation_length Pr).
    replace (rbs r + length pre + 1) with (rbs r' + length (pre ++ [v])) by (rewrite app_length; cbn; lia).
    eapply wp_conseq; [apply (IH r' (pre ++ [v]) rest' A'); now rewrite Pr| |easy].
    intros ? r2 (A2 & K2 & T2). rewrite <- app_assoc in A2. splits; auto; [eapply keeps_trans; eauto|congruence].
Qed.

Theorem rearrange_ok r l h fs : arr r (l ++ [h]) -> Permutation fs l ->
  wp (r_rearrange fs) (fun _ r' => arr r' (fs ++ [h]) /\ keeps r r' /\ rtk r' = rtk r) (fun _ => False) r.
Proof.
  intros A P. assert (Ln := a_len A). rewrite app_length in Ln. cbn in Ln.
  unfold r_rearrange. do 2 (eapply wp_bind_ret; [reflexivity|]). replace (rsz r) with (length l) by lia.
  rewrite <- (Nat.add_0_r (rbs r)). apply (@rearrange_loop_ok h fs r [] l A P).
Qed.

(** ** splice of elements given by another index of the same container *)
Definition mem_b (x : node) (xs : list node) : bool := existsb (Nat.eqb x) xs.
Lemma mem_b_in x xs : mem_b x xs = true <-> In x xs.
Proof.
  unfold mem_b. rewrite existsb_exists. split.
  - intros (y & I & E). apply Nat.eqb_eq in E. now subst.
  - intros I. exists x. split; auto. apply Nat.eqb_refl.
Qed.
Definition out_of (xs l : list node) : list node := filter (fun x => negb (mem_b x xs)) l.

(** [r1] is [r] with the slots of [xs] nulled *)
Record nulled (r r1 : rst) (f xs : list node) : Prop := mkN {
  n_at : forall i z, nth_error f i = Some z -> slot r1 (rbs r + i) = Some (if mem_b z xs then null else z);
  n_out : forall p, ~ span (rbs r) (rbs r + length f) p -> slot r1 p = slot r p;
  n_up : rup r1 = rup r;
  n_keeps : keeps r r1; n_tk : rtk r1 = rtk r }.

Lemma null_out_ok r f : arr r f -> forall xs ys r1, incl xs f -> nulled r r1 f ys ->
  wp (null_out xs) (fun _ r2 => nulled r r2 f (ys ++ xs)) (fun _ => False) r1.
Proof.
  intros A. induction xs as [|x xs IH]; intros ys r1 I H; cbn [null_out].
  - apply wp_ret. now rewrite app_nil_r.
  - assert (Ix : In x f) by (apply I; left; auto). apply In_nth_error in Ix as (i & Ei).
    assert (Li : i < length f) by (apply nth_error_Some; congruence).
    eapply wp_up; [rewrite (n_up H); apply (a_up A _ Ei)|].
    eapply wp_bind_ret; [unfold wr; rewrite (n_at H _ Ei); reflexivity|].
    eapply wp_conseq; [apply (IH (ys ++ [x]))| |easy].
    + intros y Iy. apply I. now right.
    + split; cbn; try apply H.
      * intros j z Ez. unfold upd. unfold mem_b. rewrite existsb_app. cbn [existsb]. rewrite Bool.orb_false_r.
        destruct (Nat.eqb_spec (rbs r + j) (rbs r + i)) as [E|E].
        -- assert (j = i) by lia. subst j. assert (z = x) by congruence. subst z. now rewrite Nat.eqb_refl, Bool.orb_true_r.
        -- rewrite (n_at H _ Ez). destruct (Nat.eqb_spec z x) as [->|_].
           ++ assert (j = i) by (eapply (nth_inj (f := f)); eauto; apply A). subst. easy.
           ++ now rewrite Bool.orb_false_r.
      * intros p Np. rewrite upd_neq; [now apply (n_out H)|]. intros ->. apply Np. unfold span. lia.
    + intros ? r2 H2. now rewrite <- app_assoc in H2.
Qed.

Lemma out_of_app xs a b : out_of xs (a ++ b) = out_of xs a ++ out_of xs b.
Proof. apply filter_app. Qed.
Lemma out_of_len xs l : length (out_of xs l) <= length l.
Proof. unfold out_of. induction l as [|x l IH]; cbn; [lia|]. destruct (negb _); cbn; lia. Qed.

Section Splice.
Variables (r : rst) (A B xs : list node) (h : node).
Let f := A ++ B ++ [h].
Let f' := (out_of xs A ++ xs ++ out_of xs B) ++ [h].
Hypothesis AR : arr r f.
Hypothesis Nx : NoDup xs.
Hypothesis Ix : incl xs (A ++ B).

Lemma splice_perm : Permutation (A ++ B) (out_of xs A ++ xs ++ out_of xs B).
Proof.
  assert (N : NoDup (A ++ B)) by (assert (N := a_nd AR); unfold f in N; rewrite app_assoc in N; now apply NoDup_app_iff in N).
  assert (P : Permutation (A ++ B) (xs ++ out_of xs (A ++ B))).
  { apply NoDup_Permutation; auto.
    - apply NoDup_app_iff. splits; auto.
      + apply NoDup_filter, N.
      + intros z Iz Jz. unfold out_of in Jz. apply filter_In in Jz as (_ & E).
        apply mem_b_in in Iz. now rewrite Iz in E.
    - intros z. rewrite (in_app_iff xs). unfold out_of. rewrite filter_In. split.
      + intros Iz. destruct (mem_b z xs) eqn:E; [left; now apply mem_b_in|right; auto].
      + intros [I|I]; [now apply Ix|tauto]. }
  rewrite P, out_of_app. perm.
Qed.
Lemma splice_perm' : Permutation f f'.
Proof. unfold f, f'. rewrite app_assoc. now rewrite splice_perm. Qed.

Variable r1 : rst.
Hypothesis NU : nulled r r1 f xs.

Lemma sp_al i : i < length f -> slot r1 (rbs r + i) <> None.
Proof. intros L. destruct (arr_nth AR L) as (z & E & _). rewrite (n_at NU _ E). easy. Qed.
Lemma sp_len : length (A ++ B) = length (out_of xs A) + length xs + length (out_of xs B).
Proof. rewrite (Permutation_length splice_perm), !app_length. lia. Qed.
Lemma sp_inj p q : span (rbs r) (rbs r + length f) p -> span (rbs r) (rbs r + length f) q -> tgt r f' p = tgt r f' q -> p = q.
Proof.
  unfold span. rewrite (Permutation_length splice_perm'). apply tgt_inj. eapply NoDup_perm; [exact splice_perm'|apply AR].
Qed.
Lemma lf : length f = length A + length B + 1.
Proof. unfold f. rewrite !app_length. cbn. lia. Qed.
Lemma not_null z : In z f -> z <> null.
Proof. intros I ->. now apply (a_nn AR). Qed.
Lemma sp_up z : In z f -> rup r1 z <> None.
Proof. intros I. rewrite (n_up NU). now apply (arr_in z AR). Qed.

Lemma gather_fw_ok : forall w u r2, A = u ++ w ->
  wrt r1 r2 (tgt r f') (span (rbs r) (rbs r + length (out_of xs u))) ->
  wp (gather_fw (length w) (rbs r + length u) (rbs r + length (out_of xs u)))
     (fun b r3 => b = rbs r + length (out_of xs A) /\ wrt r1 r3 (tgt r f') (span (rbs r) (rbs r + length (out_of xs A)))) (fun _ => False) r2.
Proof.
  induction w as [|z w IH]; intros u r2 E H; cbn [length gather_fw].
  - apply wp_ret. rewrite app_nil_r in E. subst. auto.
  - assert (Lu := out_of_len xs u).
    assert (Ez : nth_error f (length u) = Some z).
    { unfold f. rewrite E, <- app_assoc. rewrite nth_app_r, Nat.sub_diag by lia. reflexivity. }
    eapply wp_rdw; [exact H|unfold span; lia|apply (n_at NU _ Ez)|].
    assert (E' : A = (u ++ [z]) ++ w) by now rewrite <- app_assoc.
    assert (Iz : In z f) by now apply nth_error_In in Ez.
    replace (rbs r + length u + 1) with (rbs r + length (u ++ [z])) by (rewrite app_length; cbn; lia).
    destruct (mem_b z xs) eqn:M.
    + rewrite Nat.eqb_refl. assert (G : out_of xs (u ++ [z]) = out_of xs u).
      { rewrite out_of_app. unfold out_of at 2. cbn. rewrite M. cbn. apply app_nil_r. }
      rewrite <- G. apply IH; auto. now rewrite G.
    + destruct (Nat.eqb_spec z null) as [->|_]; [now apply not_null in Iz|].
      assert (G : out_of xs (u ++ [z]) = out_of xs u ++ [z]).
      { rewrite out_of_app. unfold out_of at 2. cbn. now rewrite M. }
      eapply wp_put; [exact H|..].
      * symmetry. apply tgt_at. unfold f'. rewrite E'. rewrite out_of_app, G, <- !app_assoc.
        rewrite nth_app_r, Nat.sub_diag by lia. reflexivity.
      * apply sp_al. rewrite lf, E, app_length. cbn. lia.
      * now apply sp_up.
      * unfold span. intros q Lq. apply sp_inj; unfold span; rewrite lf, E, app_length; cbn; lia.
      * intros r3 H3. replace (rbs r + length (out_of xs u) + 1) with (rbs r + length (out_of xs (u ++ [z]))) by (rewrite G, app_length; cbn; lia).
        apply IH; auto. eapply wrt_ext; [exact H3|]. rewrite G, app_length. unfold span. cbn. lia.
Qed.

Definition e := rbs r + length A + length B.
Lemma gather_bw_ok : forall u w r2, B = u ++ w ->
  wrt r1 r2 (tgt r f') (fun p => span (rbs r) (rbs r + length (out_of xs A)) p \/ span (e - length (out_of xs w)) e p) ->
  wp (gather_bw (length u) (e - length w) (e - length (out_of xs w)))
     (fun _ r3 => wrt r1 r3 (tgt r f') (fun p => span (rbs r) (rbs r + length (out_of xs A)) p \/ span (e - length (out_of xs B)) e p))
     (fun _ => False) r2.
Proof.
  intros u. remember (length u) as k eqn:Ek. revert u Ek.
  induction k as [|k IH]; intros u Ek w r2 E H; cbn [gather_bw].
  - apply wp_ret. destruct u; [|discriminate]. cbn in E. rewrite <- E in H. exact H.
  - destruct (exists_last (l := u)) as (u0 & z & Eu); [intros ->; discriminate|]. subst u.
    rewrite app_length in Ek. cbn in Ek. assert (k = length u0) by lia. subst k.
    assert (Lw := out_of_len xs w). assert (LA := out_of_len xs A).
    assert (LB : length B = length u0 + 1 + length w) by (rewrite E, !app_length; cbn; lia).
    assert (SL := sp_len). rewrite app_length in SL.
    assert (Ez : nth_error f (length A + length u0) = Some z).
    { unfold f. rewrite E, <- !app_assoc. rewrite nth_app_r by lia.
      replace (length A + length u0 - length A) with (length u0) by lia. rewrite nth_app_r, Nat.sub_diag by lia. reflexivity. }
    assert (E' : B = u0 ++ z :: w) by (rewrite E, <- app_assoc; reflexivity).
    assert (Iz : In z f) by now apply nth_error_In in Ez.
    eapply wp_rdw; [exact H| |..].
    { unfold span, e. lia. }
    { replace (e - length w - 1) with (rbs r + (length A + length u0)) by (unfold e; lia). apply (n_at NU _ Ez). }
    destruct (mem_b z xs) eqn:M.
    + rewrite Nat.eqb_refl. assert (G : out_of xs (z :: w) = out_of xs w) by (unfold out_of; cbn; now rewrite M).
      rewrite <- G. replace (e - length w - 1) with (e - length (z :: w)) by (cbn; lia).
      apply (IH u0); auto. now rewrite G.
    + destruct (Nat.eqb_spec z null) as [->|_]; [now apply not_null in Iz|].
      assert (G : out_of xs (z :: w) = z :: out_of xs w) by (unfold out_of; cbn; now rewrite M).
      assert (LO : length (out_of xs B) = length (out_of xs u0) + 1 + length (out_of xs w)).
      { rewrite E', out_of_app, G, app_length. cbn. lia. }
      assert (Pos : e - length (out_of xs w) - 1 = rbs r + (length (out_of xs A) + length xs + length (out_of xs u0))) by (unfold e; lia).
      eapply wp_put; [exact H|..].
      * symmetry. rewrite Pos. apply tgt_at. unfold f'. rewrite E', out_of_app, G, <- !app_assoc.
        rewrite nth_app_r by lia. rewrite nth_app_r by lia. rewrite nth_app_r by lia.
        replace (length (out_of xs A) + length xs + length (out_of xs u0) - length (out_of xs A) - length xs - length (out_of xs u0)) with 0 by lia. reflexivity.
      * rewrite Pos. apply sp_al. rewrite lf. lia.
      * now apply sp_up.
      * intros q Lq. apply sp_inj; unfold span in *; rewrite lf; unfold e in *; lia.
      * intros r3 H3. replace (e - length w - 1) with (e - length (z :: w)) by (cbn; lia).
        replace (e - length (out_of xs w) - 1) with (e - length (out_of xs (z :: w))) by (rewrite G; cbn; lia).
        apply (IH u0); auto. eapply wrt_ext; [exact H3|]. intros p. rewrite G. cbn [length]. unfold span, e. lia.
Qed.

Lemma relink_ok : forall w u r2, xs = u ++ w ->
  wrt r1 r2 (tgt r f') (fun p => span (rbs r) (rbs r + length (out_of xs A) + length u) p \/ span (e - length (out_of xs B)) e p) ->
  wp (relink_at (rbs r + length (out_of xs A) + length u) w)
     (fun _ r3 => wrt r1 r3 (tgt r f') (fun p => span (rbs r) (rbs r + length (out_of xs A) + length xs) p \/ span (e - length (out_of xs B)) e p))
     (fun _ => False) r2.
Proof.
  assert (SL := sp_len). rewrite app_length in SL.
  induction w as [|z w IH]; intros u r2 E H; cbn [relink_at].
  - apply wp_ret. rewrite app_nil_r in E. subst u. exact H.
  - assert (Lx : length xs = length u + 1 + length w) by (rewrite E, app_length; cbn; lia).
    assert (Iz : In z f). { unfold f. rewrite app_assoc, in_app_iff. left. apply Ix. rewrite E, in_app_iff. cbn. auto. }
    eapply wp_put; [exact H|..].
    + symmetry. rewrite <- Nat.add_assoc. apply tgt_at. unfold f'. rewrite <- !app_assoc, nth_app_r by lia.
      replace (length (out_of xs A) + length u - length (out_of xs A)) with (length u) by lia.
      rewrite nth_app_l by lia. rewrite E. rewrite nth_app_r, Nat.sub_diag by lia. reflexivity.
    + rewrite <- Nat.add_assoc. apply sp_al. rewrite lf. lia.
    + now apply sp_up.
    + intros q Lq. apply sp_inj; unfold span in *; rewrite lf; unfold e in *; lia.
    + intros r3 H3. replace (rbs r + length (out_of xs A) + length u + 1) with (rbs r + length (out_of xs A) + length (u ++ [z])) by (rewrite app_length; cbn; lia).
      apply IH; [now rewrite <- app_assoc|]. eapply wrt_ext; [exact H3|]. intros p. rewrite app_length. cbn [length]. unfold span. lia.
Qed.
End Splice.

Theorem internal_splice_ok r A B xs h : arr r (A ++ B ++ [h]) -> NoDup xs -> incl xs (A ++ B) ->
  wp (internal_splice (hd h B) xs)
     (fun _ r' => arr r' ((out_of xs A ++ xs ++ out_of xs B) ++ [h]) /\ keeps r r' /\ rtk r' = rtk r) (fun _ => False) r.
Proof.
  intros AR Nx Ix. unfold internal_splice. apply wp_bind. eapply wp_conseq; [apply (@null_out_ok r (A ++ B ++ [h]) AR xs [] r)| |easy].
  - rewrite app_assoc. intros z Iz. rewrite in_app_iff. left. now apply Ix.
  - split; auto; [|apply keeps_refl]. intros i z E. apply (a_slot AR _ E).
  - intros ? r1 NU. cbn [app] in NU. cbv beta in NU. assert (K1 := n_keeps NU). destruct K1 as (K1 & K2 & K3 & K4).
    assert (Ln := a_len AR). rewrite !app_length in Ln. cbn in Ln.
    assert (Up : rup r1 (hd h B) = Some (rbs r + length A)).
    { rewrite (n_up NU). destruct B as [|p B]; cbn [hd app] in *; apply (up_mid AR). }
    do 2 (eapply wp_bind_ret; [reflexivity|]). eapply wp_up; [exact Up|]. rewrite K3, K1.
    assert (Ee : rbs r + rsz r = e r A B) by (unfold e; lia).
    assert (SL := @sp_len r A B xs h AR Nx Ix). rewrite app_length in SL.
    apply wp_bind. unfold gather_nulls. apply wp_bind. eapply wp_conseq.
    { replace (rbs r + length A - rbs r) with (length A) by lia.
      assert (G := @gather_fw_ok r A B xs h AR Nx Ix r1 NU A [] r1 eq_refl). cbn [length out_of filter] in G.
      rewrite Nat.add_0_r in G. apply G. apply wrt_refl. unfold span. lia. }
    2: easy.
    intros b r2 (-> & H2). apply wp_bind. rewrite Ee. eapply wp_conseq.
    { replace (e r A B - (rbs r + length A)) with (length B) by (unfold e; lia).
      assert (G := @gather_bw_ok r A B xs h AR Nx Ix r1 NU B [] r2). rewrite app_nil_r in G. cbn [length out_of filter] in G.
      rewrite Nat.sub_0_r in G. apply G; [reflexivity|]. eapply wrt_ext; [exact H2|]. unfold span. lia. }
    2: easy.
    intros ? r3 H3. cbv beta in H3. apply wp_ret. eapply wp_conseq.
    { assert (G := @relink_ok r A B xs h AR Nx Ix r1 NU xs [] r3 eq_refl). cbn [length] in G.
      rewrite Nat.add_0_r in G. apply G. exact H3. }
    2: easy.
    intros ? r4 H4. cbv beta in H4.
    assert (W : wrt r r4 (tgt r ((out_of xs A ++ xs ++ out_of xs B) ++ [h])) (span (rbs r) (e r A B))).
    { apply wrt_ext with (W' := span (rbs r) (e r A B)) in H4; [|intros p; unfold span, e; lia].
      destruct H4 as [W1 W2 W3 W4 W5 W6 W7 W8 W9 W10]. split; try congruence; auto.
      - intros p Wp. rewrite W2 by auto. destruct (Nat.eq_dec p (e r A B)) as [->|Ne].
        + replace (e r A B) with (rbs r + length (A ++ B)) by (unfold e; rewrite app_length; lia).
          assert (AR' := AR). rewrite app_assoc in AR'.
          assert (Eh : nth_error (A ++ B ++ [h]) (length (A ++ B)) = Some h) by (rewrite app_assoc, nth_app_r, Nat.sub_diag by lia; reflexivity).
          rewrite (n_at NU _ Eh). rewrite (arr_mid AR'). destruct (mem_b h xs) eqn:M; [|auto].
          apply mem_b_in in M. apply Ix in M. exfalso. assert (N := a_nd AR'). apply NoDup_remove_2 in N. rewrite app_nil_r in N. auto.
        + apply (n_out NU). unfold span in *. rewrite !app_length. cbn. unfold e in *. lia.
      - intros x Hx. rewrite W3 by auto. now rewrite (n_up NU).
      - intros x Hx. apply W4. now rewrite (n_up NU).
      - intros p Hp. apply W5. destruct (span_dec (rbs r) (rbs r + length (A ++ B ++ [h])) p) as [S|S].
        + unfold span in S. replace p with (rbs r + (p - rbs r)) by lia. eapply sp_al; [exact AR|exact NU|lia].
        + now rewrite (n_out NU).
      - rewrite W10. apply (n_tk NU). }
    split; [|split; [now apply keeps_wrt in W|apply (w_tk W)]].
    eapply (wrt_done AR W).
    + eapply splice_perm'; eauto.
    + intros i x E Nw. unfold span, e in Nw. assert (Li : i < length ((out_of xs A ++ xs ++ out_of xs B) ++ [h])) by (apply nth_error_Some; congruence).
      rewrite !app_length in Li. cbn in Li. assert (i = length (out_of xs A ++ xs ++ out_of xs B)) by (rewrite !app_length; lia). subst i.
      rewrite nth_app_r, Nat.sub_diag in E by lia. rewrite app_assoc, nth_app_r by (rewrite !app_length; lia).
      replace (length (out_of xs A ++ xs ++ out_of xs B) - length (A ++ B)) with 0 by (rewrite !app_length; lia). exact E.
    + unfold span, e. intros p Lp. exists (p - rbs r). rewrite !app_length. cbn. lia.
    + intros i. apply span_dec.
Qed.
