(** Correctness of the operations of random access indices. *)
From Verif Require SeqUser.
From Verif Require Import Prelude Layer LayerBase RndModel RndProofs RndRot.
Set Implicit Arguments.


Definition adv_tk (r : rst) (n : nat) : rst := mkR (slot r) (rup r) (rsz r) (rcap r) (rbs r) (rbrk r) n.
Lemma arr_tk r f n : arr r f -> arr (adv_tk r n) f.
Proof. intros [A B C D E F G H I]. now split. Qed.

(** ** swapping two slots *)
Lemma swap_eq r p q x y : slot r p = Some x -> slot r q = Some y -> rup r x <> None -> rup r y <> None ->
  swap_slots p q r = Ret tt (put_st (put_st r p y) q x).
Proof.
  intros Sp Sq Ux Uy. unfold swap_slots, bind, rd, wr, set_up. rewrite Sp, Sq. cbn. rewrite Sp. cbn.
  unfold upd at 1. destruct (Nat.eqb_spec q p) as [->|N].
  - assert (y = x) by congruence. subst y. cbn. rewrite upd_eq. cbn. destruct (rup r x) eqn:E; [|easy]. cbn.
    rewrite !upd_eq. cbn. rewrite upd_eq. reflexivity.
  - rewrite Sq. cbn.
    assert (E1 : upd (upd (slot r) p (Some y)) q (Some x) p = Some y) by (rewrite upd_neq by auto; apply upd_eq).
    rewrite E1. cbn. destruct (rup r y) eqn:E; [|easy]. cbn. rewrite upd_eq. cbn.
    destruct (upd (rup r) y (Some p) x) eqn:Ex; [reflexivity|]. unfold upd in Ex. destruct (x =? y); easy.
Qed.

Lemma nth_two {A} (a b c : list A) x y i z : i <> length a -> i <> length a + 1 + length b ->
  nth_error (a ++ y :: b ++ x :: c) i = Some z -> nth_error (a ++ x :: b ++ y :: c) i = Some z.
Proof.
  intros N1 N2 E. destruct (Nat.lt_ge_cases i (length a)) as [L|L]; [now rewrite nth_app_l in * by auto|].
  rewrite nth_app_r in * by auto. destruct (i - length a) as [|j] eqn:Ej; [lia|]. cbn in *.
  destruct (Nat.lt_ge_cases j (length b)) as [Lb|Lb]; [now rewrite nth_app_l in * by auto|].
  rewrite nth_app_r in * by auto. destruct (j - length b) as [|k] eqn:Ek; [lia|]. exact E.
Qed.

Lemma swap_arr r a x b y c p q : arr r (a ++ x :: b ++ y :: c) ->
  (p = rbs r + length a /\ q = rbs r + length a + 1 + length b \/
   q = rbs r + length a /\ p = rbs r + length a + 1 + length b) ->
  exists r', swap_slots p q r = Ret tt r' /\ arr r' (a ++ y :: b ++ x :: c) /\ keeps r r' /\ rtk r' = rtk r.
Proof.
  intros A PQ. set (f := a ++ x :: b ++ y :: c) in *. set (f' := a ++ y :: b ++ x :: c).
  assert (P : Permutation f f') by (unfold f, f'; perm).
  assert (N' : NoDup f') by (eapply NoDup_perm; [exact P|apply A]).
  assert (Lf : length f' = length a + 2 + length b + length c) by (unfold f'; rewrite !app_length; cbn; rewrite app_length; cbn; lia).
  set (i := length a) in *. set (j := length a + 1 + length b).
  assert (Ei : nth_error f i = Some x) by (unfold f, i; rewrite nth_app_r, Nat.sub_diag by lia; reflexivity).
  assert (Ej : nth_error f j = Some y).
  { unfold f, j. rewrite nth_app_r by lia. replace (length a + 1 + length b - length a) with (S (length b)) by lia. cbn.
    rewrite nth_app_r, Nat.sub_diag by lia. reflexivity. }
  assert (Ei' : nth_error f' i = Some y) by (unfold f', i; rewrite nth_app_r, Nat.sub_diag by lia; reflexivity).
  assert (Ej' : nth_error f' j = Some x).
  { unfold f', j. rewrite nth_app_r by lia. replace (length a + 1 + length b - length a) with (S (length b)) by lia. cbn.
    rewrite nth_app_r, Nat.sub_diag by lia. reflexivity. }
  assert (Ux : rup r x <> None) by (rewrite (a_up A _ Ei); easy).
  assert (Uy : rup r y <> None) by (rewrite (a_up A _ Ej); easy).
  set (p1 := rbs r + i) in *. set (p2 := rbs r + j).
  assert (T1 : tgt r f' p1 = y) by (apply tgt_at; auto). assert (T2 : tgt r f' p2 = x) by (apply tgt_at; auto).
  assert (Fin : forall r', wrt r r' (tgt r f') (fun z => z = p1 \/ z = p2) ->
     arr r' f' /\ keeps r r' /\ rtk r' = rtk r).
  { intros r' H. split; [|split; [now apply keeps_wrt in H|apply (w_tk H)]].
    eapply (wrt_done (f' := f') A); [exact H|exact P|..].
    - intros k z Ek Nk. apply nth_two; auto; intros ->; apply Nk; unfold p1, p2, i, j; lia.
    - intros z [->| ->]; [exists i|exists j]; split; auto; unfold i, j; lia.
    - intros k. destruct (Nat.eq_dec (rbs r + k) p1), (Nat.eq_dec (rbs r + k) p2); tauto. }
  assert (NE : x <> y). { intros ->. assert (i = j) by (eapply (nth_inj (f := f)); eauto; apply A). unfold i, j in *. lia. }
  destruct PQ as [(-> & ->)|(-> & ->)].
  - replace (p1 + 1 + length b) with p2 by (unfold p2, p1, j, i; lia).
    exists (put_st (put_st r p1 y) p2 x). split; [apply swap_eq; auto; [apply (a_slot A _ Ei)|apply (a_slot A _ Ej)]|].
    apply Fin. rewrite <- T1 at 1. rewrite <- T2 at 1.
    eapply wrt_ext; [apply wrt_put; [apply wrt_put; [apply (@wrt_refl r _ (fun _ => False)); auto|easy]|]|].
    + intros z [[]| ->] E. rewrite T1, T2 in E. congruence.
    + cbn. tauto.
  - replace (p1 + 1 + length b) with p2 by (unfold p2, p1, j, i; lia).
    exists (put_st (put_st r p2 x) p1 y). split; [apply swap_eq; auto; [apply (a_slot A _ Ej)|apply (a_slot A _ Ei)]|].
    apply Fin. rewrite <- T1 at 1. rewrite <- T2 at 1.
    eapply wrt_ext; [apply wrt_put; [apply wrt_put; [apply (@wrt_refl r _ (fun _ => False)); auto|easy]|]|].
    + intros z [[]| ->] E. rewrite T1, T2 in E. congruence.
    + cbn. tauto.
Qed.

(** ** reverse *)
Lemma reverse_loop_ok : forall d r a m c, arr r (a ++ m ++ c) -> d = length m / 2 ->
  wp (reverse_loop d (rbs r + length a) (rbs r + length a + length m))
     (fun _ r' => arr r' (a ++ rev m ++ c) /\ keeps r r' /\ rtk r' = rtk r) (fun _ => False) r.
Proof.
  induction d as [|d IH]; intros r a m c A Ed; cbn [reverse_loop].
  - apply wp_ret. split; [|split; [apply keeps_refl|auto]].
    destruct m as [|x [|y m]]; auto. exfalso. cbn [length] in Ed.
    replace (S (S (length m))) with (length m + 1 * 2) in Ed by lia. rewrite Nat.div_add in Ed by lia. lia.
  - destruct m as [|x m]; [easy|]. destruct (@exists_last _ m) as (m' & y & ->).
    { intros ->. cbn in Ed. easy. }
    assert (Ed' : d = length m' / 2).
    { cbn [length] in Ed. rewrite app_length in Ed. cbn [length] in Ed.
      replace (S (length m' + 1)) with (length m' + 1 * 2) in Ed by lia. rewrite Nat.div_add in Ed by lia. lia. }
    cbn [app] in A. rewrite <- app_assoc in A. cbn [app] in A.
    destruct (@swap_arr r a x m' y c (rbs r + length a) (rbs r + length a + length (x :: m' ++ [y]) - 1) A)
      as (r1 & E1 & A1 & K1 & T1).
    { left. split; auto. cbn [length]. rewrite app_length. cbn. lia. }
    eapply wp_bind_ret; [exact E1|].
    assert (B1 : rbs r1 = rbs r) by apply K1.
    replace (a ++ y :: m' ++ x :: c) with ((a ++ [y]) ++ m' ++ (x :: c)) in A1 by (rewrite <- app_assoc; reflexivity).
    replace (rbs r + length a + 1) with (rbs r1 + length (a ++ [y])) by (rewrite app_length, B1; cbn; lia).
    replace (rbs r + length a + length (x :: m' ++ [y]) - 1) with (rbs r1 + length (a ++ [y]) + length m')
      by (cbn [length]; rewrite !app_length, B1; cbn; lia).
    eapply wp_conseq; [apply IH; [exact A1|auto]| |easy].
    + intros ? r2 (A2 & K2 & T2). split; [|split; [eapply keeps_trans; eauto|congruence]].
      rewrite <- app_assoc in A2. cbn [app] in A2. cbn [rev]. rewrite rev_app_distr. cbn [rev app].
      rewrite <- app_assoc. exact A2.
Qed.

Lemma reverse_ok r l h : arr r (l ++ [h]) ->
  wp r_reverse (fun _ r' => arr r' (rev l ++ [h]) /\ keeps r r' /\ rtk r' = rtk r) (fun _ => False) r.
Proof.
  intros A. unfold r_reverse. assert (Ln := a_len A). rewrite app_length in Ln. cbn in Ln.
  unfold wp, bind, a_begin, a_end. unfold reverse. replace (rbs r + rsz r - rbs r) with (rsz r) by lia.
  replace (rsz r) with (length l) by lia.
  assert (H := @reverse_loop_ok _ r [] l [h] A eq_refl). cbn [length app] in H. rewrite Nat.add_0_r in H. exact H.
Qed.

Lemma arr_mid r a x c : arr r (a ++ x :: c) -> slot r (rbs r + length a) = Some x.
Proof. intros A. apply (a_slot A). rewrite nth_app_r, Nat.sub_diag by lia. reflexivity. Qed.
Lemma up_mid r a x c : arr r (a ++ x :: c) -> rup r x = Some (rbs r + length a).
Proof. intros A. apply (a_up A). rewrite nth_app_r, Nat.sub_diag by lia. reflexivity. Qed.

Arguments arr_mid {r a x c}.
Arguments up_mid {r a x c}.

(** ** remove_if *)
Section Pred.
Variable throws : nat -> bool.

Lemma wp_rtick {B} (k : unit -> RM B) Q E r :
  (throws (rtk r) = false -> wp (k tt) Q E (adv_tk r (S (rtk r)))) ->
  (throws (rtk r) = true -> E (adv_tk r (S (rtk r)))) ->
  wp (bind (r_tick throws) k) Q E r.
Proof. intros H1 H2. unfold wp, bind, r_tick, adv_tk in *. destruct (throws (rtk r)); [now apply H2|now apply H1]. Qed.

Lemma remove_loop_ok pred t : forall rest r k d,
  arr r (k ++ d ++ rest ++ t) ->
  wp (remove_loop throws pred (length rest) (rbs r + length k + length d) (rbs r + length k))
     (fun res r' => quiet throws (rtk r) (rtk r') /\ keeps r r' /\
        exists d', res = rbs r + length (k ++ filter (fun x => negb (pred x)) rest) /\
          arr r' ((k ++ filter (fun x => negb (pred x)) rest) ++ d' ++ t) /\
          Permutation d' (d ++ filter pred rest))
     (fun r' => blown throws (rtk r) (rtk r') /\ keeps r r' /\
        exists w, arr r' (w ++ t) /\ Permutation w (k ++ d ++ rest)) r.
Proof.
  induction rest as [|x rest IH]; intros r k d A; cbn [length remove_loop filter].
  - apply wp_ret. rewrite !app_nil_r. split; [apply quiet_refl|split; [apply keeps_refl|]].
    exists d. auto.
  - assert (A' := A). replace (k ++ d ++ (x :: rest) ++ t) with ((k ++ d) ++ x :: rest ++ t) in A' by (rewrite <- app_assoc; reflexivity).
    eapply wp_rd; [replace (rbs r + length k + length d) with (rbs r + length (k ++ d)) by (rewrite app_length; lia); apply (arr_mid A')|].
    apply wp_rtick; intros T.
    2:{ split; [now apply blown_S|split; [repeat split|]]. exists (k ++ d ++ x :: rest). split.
        - apply arr_tk. now rewrite <- !app_assoc.
        - reflexivity. }
    set (r1 := adv_tk r (S (rtk r))). assert (A1 : arr r1 (k ++ d ++ (x :: rest) ++ t)) by now apply arr_tk.
    assert (Q1 : quiet throws (rtk r) (rtk r1)) by now apply quiet_S.
    destruct (pred x) eqn:Px; cbn [negb].
    + replace (rbs r + length k + length d + 1) with (rbs r1 + length k + length (d ++ [x])) by (rewrite app_length; cbn; lia).
      eapply wp_conseq; [apply (IH r1 k (d ++ [x]))| |].
      * now rewrite <- app_assoc.
      * intros res r' (Q & K & d' & E & A2 & P). split; [eapply quiet_trans; eauto|]. split; [exact K|].
        exists d'. splits; auto. rewrite P, <- app_assoc. reflexivity.
      * intros r' (Bl & K & w & A2 & P). split; [eapply blown_trans; eauto|]. split; [exact K|]. exists w. split; auto.
        rewrite P, <- app_assoc. reflexivity.
    + assert (Sw : exists r2 d2, (if rbs r + length k + length d =? rbs r + length k then ret tt
            else swap_slots (rbs r + length k + length d) (rbs r + length k)) r1 = Ret tt r2 /\
            arr r2 ((k ++ [x]) ++ d2 ++ rest ++ t) /\ keeps r1 r2 /\ rtk r2 = rtk r1 /\ length d2 = length d /\ Permutation d2 d).
      { destruct d as [|y d].
        - exists r1, []. cbn [length]. rewrite Nat.add_0_r, Nat.eqb_refl. splits; auto.
          + rewrite <- app_assoc. exact A1.
          + apply keeps_refl.
        - destruct (Nat.eqb_spec (rbs r + length k + length (y :: d)) (rbs r + length k)) as [E|_]; [cbn in E; lia|].
          destruct (@swap_arr r1 k y d x (rest ++ t) (rbs r + length k + length (y :: d)) (rbs r + length k))
            as (r2 & E2 & A2 & K2 & T2).
          + exact A1.
          + right. cbn. lia.
          + exists r2, (d ++ [y]). splits; auto.
            * rewrite <- !app_assoc. exact A2.
            * rewrite app_length. cbn. lia.
            * perm. }
      destruct Sw as (r2 & d2 & E2 & A2 & K2 & T2 & L2 & P2). eapply wp_bind_ret; [exact E2|].
      assert (B2 : rbs r2 = rbs r) by apply K2.
      replace (rbs r + length k + length d + 1) with (rbs r2 + length (k ++ [x]) + length d2) by (rewrite app_length; cbn; lia).
      replace (rbs r + length k + 1) with (rbs r2 + length (k ++ [x])) by (rewrite app_length; cbn; lia).
      eapply wp_conseq; [apply (IH r2 (k ++ [x]) d2 A2)| |].
      * intros res r' (Q & K & d' & E & A3 & P). rewrite T2 in Q. split; [eapply quiet_trans; eauto|].
        split; [eapply keeps_trans; [exact K2|exact K]|]. exists d'.
        rewrite <- !app_assoc in E. rewrite <- !app_assoc in A3. rewrite B2 in E. rewrite <- app_assoc. splits; auto.
        rewrite P, P2. reflexivity.
      * intros r' (Bl & K & w & A3 & P). rewrite T2 in Bl. split; [eapply blown_trans; eauto|].
        split; [eapply keeps_trans; [exact K2|exact K]|]. exists w. split; auto. rewrite P, P2, <- app_assoc. cbn. perm.
Qed.

(** after removal the node returned heads the elements to be popped *)
Theorem ptr_remove_ok pred r l h : arr r (l ++ [h]) ->
  wp (ptr_remove throws pred)
     (fun x r' => quiet throws (rtk r) (rtk r') /\ keeps r r' /\
        exists d, arr r' (filter (fun x => negb (pred x)) l ++ d ++ [h]) /\ Permutation d (filter pred l) /\
          x = hd h d)
     (fun r' => blown throws (rtk r) (rtk r') /\ keeps r r' /\
        exists w, arr r' (w ++ [h]) /\ Permutation w l) r.
Proof.
  intros A. unfold ptr_remove. assert (Ln := a_len A). rewrite app_length in Ln. cbn in Ln.
  unfold bind at 1 2. unfold wp at 1, a_begin, get_sz. fold (wp (bind (remove_loop throws pred (rsz r) (rbs r) (rbs r)) rd)
     (fun x r' => quiet throws (rtk r) (rtk r') /\ keeps r r' /\
        exists d, arr r' (filter (fun x => negb (pred x)) l ++ d ++ [h]) /\ Permutation d (filter pred l) /\
          x = hd h d)
     (fun r' => blown throws (rtk r) (rtk r') /\ keeps r r' /\
        exists w, arr r' (w ++ [h]) /\ Permutation w l) r).
  assert (H := @remove_loop_ok pred [h] l r [] [] A). cbn [length app] in H. rewrite !Nat.add_0_r in H.
  replace (rsz r) with (length l) by lia. apply wp_bind. eapply wp_conseq; [exact H| |].
  - intros res r' (Q & K & d & -> & A' & P). unfold wp, rd.
    assert (B : rbs r' = rbs r) by apply K. rewrite <- B.
    destruct d as [|y d].
    + cbn [app] in A'. rewrite (arr_mid A'). splits; auto; try apply K. exists []. auto.
    + cbn [app] in A'. rewrite (arr_mid A'). splits; auto; try apply K. exists (y :: d). auto.
  - auto.
Qed.

(** ** unique *)
(** the first element of each group: [m] is kept, what follows it is compared with it *)
Fixpoint firsts (pred : node -> node -> bool) (m : node) (l : list node) : list node :=
  match l with
  | [] => [m]
  | x :: l => if pred m x then firsts pred m l else m :: firsts pred x l
  end.

Lemma unique_loop_ok pred t : forall rest r k m d,
  arr r (k ++ m :: d ++ rest ++ t) ->
  wp (unique_loop throws pred (length rest) (rbs r + length k + 1 + length d) (rbs r + length k))
     (fun res r' => quiet throws (rtk r) (rtk r') /\ keeps r r' /\
        exists d', res = rbs r + length (k ++ firsts pred m rest) /\
          arr r' ((k ++ firsts pred m rest) ++ d' ++ t) /\ Permutation (firsts pred m rest ++ d') (m :: d ++ rest))
     (fun r' => blown throws (rtk r) (rtk r') /\ keeps r r' /\
        exists w, arr r' (w ++ t) /\ Permutation w (k ++ m :: d ++ rest)) r.
Proof.
  induction rest as [|x rest IH]; intros r k m d A; cbn [length unique_loop firsts].
  - apply wp_ret. split; [apply quiet_refl|split; [apply keeps_refl|]].
    exists d. rewrite app_length. cbn [length]. split; [lia|]. split; [now rewrite <- app_assoc|]. now rewrite app_nil_r.
  - assert (A' := A). replace (k ++ m :: d ++ (x :: rest) ++ t) with ((k ++ m :: d) ++ x :: rest ++ t) in A' by (rewrite <- app_assoc; reflexivity).
    eapply wp_rd; [apply (arr_mid A)|].
    eapply wp_rd; [replace (rbs r + length k + 1 + length d) with (rbs r + length (k ++ m :: d)) by (rewrite app_length; cbn; lia); apply (arr_mid A')|].
    apply wp_rtick; intros T.
    2:{ split; [now apply blown_S|split; [repeat split|]]. exists (k ++ m :: d ++ x :: rest). split.
        - apply arr_tk. rewrite <- app_assoc. cbn. now rewrite <- app_assoc.
        - reflexivity. }
    set (r1 := adv_tk r (S (rtk r))). assert (A1 : arr r1 (k ++ m :: d ++ (x :: rest) ++ t)) by now apply arr_tk.
    assert (Q1 : quiet throws (rtk r) (rtk r1)) by now apply quiet_S.
    destruct (pred m x) eqn:Px.
    + replace (rbs r + length k + 1 + length d + 1) with (rbs r1 + length k + 1 + length (d ++ [x])) by (rewrite app_length; cbn; lia).
      eapply wp_conseq; [apply (IH r1 k m (d ++ [x]))| |].
      * now rewrite <- app_assoc.
      * intros res r' (Q & K & d' & E & A2 & P). split; [eapply quiet_trans; eauto|]. split; [exact K|].
        exists d'. splits; auto. rewrite P, <- app_assoc. reflexivity.
      * intros r' (Bl & K & w & A2 & P). split; [eapply blown_trans; eauto|]. split; [exact K|]. exists w. split; auto.
        rewrite P, <- app_assoc. reflexivity.
    + assert (Sw : exists r2 d2, (if rbs r + length k + 1 + length d =? rbs r + length k + 1 then ret tt
            else swap_slots (rbs r + length k + 1 + length d) (rbs r + length k + 1)) r1 = Ret tt r2 /\
            arr r2 ((k ++ [m]) ++ x :: d2 ++ rest ++ t) /\ keeps r1 r2 /\ rtk r2 = rtk r1 /\ length d2 = length d /\ Permutation d2 d).
      { destruct d as [|y d].
        - exists r1, []. cbn [length]. rewrite Nat.add_0_r, Nat.eqb_refl. splits; auto.
          + rewrite <- app_assoc. exact A1.
          + apply keeps_refl.
        - destruct (Nat.eqb_spec (rbs r + length k + 1 + length (y :: d)) (rbs r + length k + 1)) as [E|_]; [cbn in E; lia|].
          destruct (@swap_arr r1 (k ++ [m]) y d x (rest ++ t) (rbs r + length k + 1 + length (y :: d)) (rbs r + length k + 1))
            as (r2 & E2 & A2 & K2 & T2).
          + rewrite <- app_assoc. exact A1.
          + right. rewrite app_length. cbn. lia.
          + exists r2, (d ++ [y]). splits; auto.
            * rewrite <- !app_assoc in *. exact A2.
            * rewrite app_length. cbn. lia.
            * perm. }
      destruct Sw as (r2 & d2 & E2 & A2 & K2 & T2 & L2 & P2). eapply wp_bind_ret; [exact E2|].
      assert (B2 : rbs r2 = rbs r) by apply K2.
      replace (rbs r + length k + 1 + length d + 1) with (rbs r2 + length (k ++ [m]) + 1 + length d2) by (rewrite app_length; cbn; lia).
      replace (rbs r + length k + 1) with (rbs r2 + length (k ++ [m])) by (rewrite app_length; cbn; lia).
      eapply wp_conseq; [apply (IH r2 (k ++ [m]) x d2 A2)| |].
      * intros res r' (Q & K & d' & E & A3 & P). rewrite T2 in Q. split; [eapply quiet_trans; eauto|].
        split; [eapply keeps_trans; [exact K2|exact K]|]. exists d'.
        rewrite <- !app_assoc in E. rewrite <- !app_assoc in A3. rewrite B2 in E. rewrite <- app_assoc. splits; auto.
        cbn. rewrite P, P2. perm.
      * intros r' (Bl & K & w & A3 & P). rewrite T2 in Bl. split; [eapply blown_trans; eauto|].
        split; [eapply keeps_trans; [exact K2|exact K]|]. exists w. split; auto. rewrite P, P2, <- app_assoc. cbn. perm.
Qed.

Definition firsts_of (pred : node -> node -> bool) (l : list node) : list node :=
  match l with [] => [] | m :: l => firsts pred m l end.
Theorem ptr_unique_ok pred r l h : arr r (l ++ [h]) ->
  wp (ptr_unique throws pred)
     (fun x r' => quiet throws (rtk r) (rtk r') /\ keeps r r' /\
        exists d, arr r' (firsts_of pred l ++ d ++ [h]) /\ Permutation (firsts_of pred l ++ d) l /\ x = hd h d)
     (fun r' => blown throws (rtk r) (rtk r') /\ keeps r r' /\
        exists w, arr r' (w ++ [h]) /\ Permutation w l) r.
Proof.
  intros A. unfold ptr_unique. assert (Ln := a_len A). rewrite app_length in Ln. cbn in Ln.
  eapply wp_bind_ret; [reflexivity|]. eapply wp_bind_ret; [reflexivity|].
  assert (Rd : forall k d r', arr r' (k ++ d ++ [h]) -> rbs r' = rbs r -> rd (rbs r + length k) r' = Ret (hd h d) r').
  { intros k d r' A' B. unfold rd. rewrite <- B. destruct d as [|y d]; cbn [app] in A'; now rewrite (arr_mid A'). }
  destruct l as [|m l].
  - cbn [length] in Ln. replace (rsz r) with 0 by lia. rewrite Nat.eqb_refl. eapply wp_bind_ret; [reflexivity|].
    eapply wp_det; [rewrite <- (Nat.add_0_r (rbs r)); apply (Rd [] [] r); auto|].
    split; [apply quiet_refl|]. split; [apply keeps_refl|]. exists []. auto.
  - cbn [length] in Ln. destruct (Nat.eqb_spec (rsz r) 0); [lia|]. apply wp_bind.
    assert (H := @unique_loop_ok pred [h] l r [] m [] A). cbn [length app] in H. rewrite !Nat.add_0_r in H.
    replace (rsz r - 1) with (length l) by lia. eapply wp_conseq; [exact H| |].
    + intros res r' (Q & K & d & -> & A' & P). eapply wp_det; [apply (Rd (firsts pred m l) d r'); auto; apply K|].
      splits; auto; try apply K. exists d. auto.
    + auto.
Qed.

(** ** copying out and putting back *)
Lemma copy_out_ok c : forall b a r out, arr r (a ++ b ++ c) ->
  copy_out (length b) (rbs r + length a) out r = Ret (rev b ++ out) r.
Proof.
  induction b as [|x b IH]; intros a r out A; cbn [length copy_out]; [reflexivity|].
  unfold bind, rd. rewrite (arr_mid A). replace (rbs r + length a + 1) with (rbs r + length (a ++ [x])) by (rewrite app_length; cbn; lia).
  rewrite IH; [|now rewrite <- app_assoc]. cbn [rev]. now rewrite <- app_assoc.
Qed.

Lemma put_back_wrt r0 F lo : forall out first r,
  wrt r0 r F (span lo first) -> lo <= first ->
  (forall i x, nth_error out i = Some x -> F (first + i) = x /\ slot r0 (first + i) <> None /\ rup r0 x <> None) ->
  (forall p q, lo <= p < first + length out -> lo <= q < first + length out -> F p = F q -> p = q) ->
  wp (put_back (length out) first out) (fun _ r' => wrt r0 r' F (span lo (first + length out))) (fun _ => False) r.
Proof.
  induction out as [|x out IH]; intros first r H L G Inj; cbn [length put_back].
  - apply wp_ret. now rewrite Nat.add_0_r.
  - destruct (G 0 x eq_refl) as (Fx & Al & Up). rewrite Nat.add_0_r in Fx, Al.
    eapply wp_put; [exact H|auto|exact Al|exact Up|..].
    + unfold span. cbn in Inj. intros q Lq. apply Inj; lia.
    + intros r' H'. eapply wp_conseq; [apply (IH (first + 1) r')| |auto].
      * eapply wrt_ext; [exact H'|]. unfold span. lia.
      * lia.
      * intros i y Ey. replace (first + 1 + i) with (first + S i) by lia. apply G. exact Ey.
      * cbn in Inj. intros p q Lp Lq. apply Inj; lia.
      * intros ? r2 H2. cbn [length]. replace (first + S (length out)) with (first + 1 + length out) by lia. exact H2.
Qed.

Lemma put_back_ok r l l' h : arr r (l ++ [h]) -> Permutation l l' ->
  wp (put_back (rsz r) (rbs r) l')
     (fun _ r' => arr r' (l' ++ [h]) /\ keeps r r' /\ rtk r' = rtk r) (fun _ => False) r.
Proof.
  intros A P. assert (Ln := a_len A). rewrite app_length in Ln. cbn in Ln.
  assert (Ll := Permutation_length P).
  assert (P' : Permutation (l ++ [h]) (l' ++ [h])) by now rewrite P.
  assert (N' : NoDup (l' ++ [h])) by (eapply NoDup_perm; [exact P'|apply A]).
  replace (rsz r) with (length l') by lia.
  eapply wp_conseq; [apply (@put_back_wrt r (tgt r (l' ++ [h])) (rbs r) l' (rbs r) r)| |easy].
  - apply wrt_refl. unfold span. lia.
  - lia.
  - intros i x E. assert (Li : i < length l') by (apply nth_error_Some; congruence).
    splits.
    + apply tgt_at. now rewrite nth_app_l.
    + apply (arr_al A). rewrite app_length. cbn. lia.
    + apply (arr_in x A). rewrite in_app_iff. left. eapply Permutation_in; [symmetry; exact P|]. now apply nth_error_In in E.
  - intros p q Lp Lq. apply tgt_inj; auto; rewrite app_length; cbn; lia.
  - intros ? r' H. split; [|split; [now apply keeps_wrt in H|apply (w_tk H)]].
    eapply (wrt_done (f' := l' ++ [h]) A); [exact H|exact P'|..].
    + intros i x E Nw. unfold span in Nw. assert (Li : i < length (l' ++ [h])) by (apply nth_error_Some; congruence).
      rewrite app_length in Li. cbn in Li. assert (i = length l') by lia. subst i.
      rewrite nth_app_r, Nat.sub_diag in E by lia. rewrite <- Ll, nth_app_r, Nat.sub_diag by lia. exact E.
    + unfold span. intros p Lp. exists (p - rbs r). rewrite app_length. cbn. lia.
    + intros i. apply span_dec.
Qed.

(** ** merge *)
Definition merged (lt : node -> node -> bool) (a b : list node) : list node :=
  fst (SeqUser.mergeA (fun _ => true) lt a b).
Lemma merged_nil lt b : merged lt [] b = b.
Proof.
  unfold merged. rewrite SeqUser.mergeA_nil. cbn. induction b; cbn; congruence.
Qed.
Lemma merged_nil2 lt a : merged lt a [] = a.
Proof. unfold merged. now rewrite SeqUser.mergeA_nil2. Qed.
Lemma merged_cons lt x a y b : merged lt (x :: a) (y :: b) =
  if lt y x then y :: merged lt (x :: a) b else x :: merged lt a (y :: b).
Proof.
  unfold merged. rewrite SeqUser.mergeA_cons. destruct (lt y x).
  - now destruct (SeqUser.mergeA (fun _ => true) lt (x :: a) b).
  - now destruct (SeqUser.mergeA (fun _ => true) lt a (y :: b)).
Qed.
Lemma merged_perm lt a b : Permutation (merged lt a b) (a ++ b).
Proof.
  revert b. induction a as [|x a IH]; intros b; [now rewrite merged_nil|].
  induction b as [|y b IHb]; [now rewrite merged_nil2, app_nil_r|].
  rewrite merged_cons. destruct (lt y x).
  - rewrite IHb. perm.
  - rewrite IH. reflexivity.
Qed.

Lemma merge_loop_ok lt t : forall fuel r a0 a b0 b out,
  arr r ((a0 ++ a) ++ b0 ++ b ++ t) -> length a + length b <= fuel ->
  wp (merge_loop throws lt fuel (rbs r + length a0) (rbs r + length a0 + length a)
        (rbs r + length a0 + length a + length b0) (rbs r + length a0 + length a + length b0 + length b) out)
     (fun st r' => quiet throws (rtk r) (rtk r') /\ r' = adv_tk r (rtk r') /\
        exists a1 a2 b1 b2 out', st = (rbs r + length a0 + length a1, rbs r + length a0 + length a + length b0 + length b1, out') /\
          a = a1 ++ a2 /\ b = b1 ++ b2 /\ (a2 = [] \/ b2 = []) /\
          rev out ++ merged lt a b = rev out' ++ a2 ++ b2)
     (fun r' => blown throws (rtk r) (rtk r') /\ r' = adv_tk r (rtk r')) r.
Proof.
  assert (Self : forall r, r = adv_tk r (rtk r)) by now intros [].
  induction fuel as [|fuel IH]; intros r a0 a b0 b out A Lf.
  - destruct a; [|cbn in Lf; lia]. destruct b; [|cbn in Lf; lia]. cbn [length merge_loop].
    rewrite !Nat.add_0_r, Nat.eqb_refl. cbn [orb]. apply wp_ret. split; [apply quiet_refl|]. split; [apply Self|].
    exists [], [], [], [], out. cbn [length]. rewrite !Nat.add_0_r. splits; auto.
  - cbn [merge_loop].
    destruct a as [|x a].
    { cbn [length]. rewrite !Nat.add_0_r, Nat.eqb_refl. cbn [orb]. apply wp_ret. split; [apply quiet_refl|]. split; [apply Self|].
      exists [], [], [], b, out. cbn [length]. rewrite !Nat.add_0_r, merged_nil. splits; auto. }
    destruct b as [|y b].
    { cbn [length]. rewrite !Nat.add_0_r, Nat.eqb_refl, Bool.orb_true_r. apply wp_ret. split; [apply quiet_refl|]. split; [apply Self|].
      exists [], (x :: a), [], [], out. cbn [length]. rewrite !Nat.add_0_r, merged_nil2. splits; auto. now rewrite app_nil_r. }
    destruct (Nat.eqb_spec (rbs r + length a0) (rbs r + length a0 + length (x :: a))) as [E|_]; [cbn in E; lia|].
    destruct (Nat.eqb_spec (rbs r + length a0 + length (x :: a) + length b0)
        (rbs r + length a0 + length (x :: a) + length b0 + length (y :: b))) as [E|_]; [cbn in E; lia|].
    cbn [orb].
    assert (Ax : arr r (a0 ++ x :: (a ++ b0 ++ (y :: b) ++ t))) by (rewrite <- app_assoc in A; exact A).
    assert (Ay : arr r (((a0 ++ x :: a) ++ b0) ++ y :: (b ++ t))) by (rewrite <- app_assoc; exact A).
    eapply wp_rd.
    { replace (rbs r + length a0 + length (x :: a) + length b0) with (rbs r + length ((a0 ++ x :: a) ++ b0)); [apply (arr_mid Ay)|].
      rewrite !app_length. lia. }
    eapply wp_rd; [apply (arr_mid Ax)|].
    apply wp_rtick; intros T; [|split; [now apply blown_S|reflexivity]].
    set (r1 := adv_tk r (S (rtk r))).
    assert (Q1 : quiet throws (rtk r) (rtk r1)) by now apply quiet_S.
    rewrite merged_cons. destruct (lt y x) eqn:C.
    + assert (A1 : arr r1 ((a0 ++ x :: a) ++ (b0 ++ [y]) ++ b ++ t)) by (apply arr_tk; rewrite <- (app_assoc b0); exact A).
      assert (H := IH r1 a0 (x :: a) (b0 ++ [y]) b (y :: out) A1). rewrite app_length in H. cbn [length] in H, Lf.
      eapply wp_conseq; [replace (rbs r + length a0 + length (x :: a) + length b0 + 1) with (rbs r1 + length a0 + S (length a) + (length b0 + 1)) by (cbn; lia);
        replace (rbs r + length a0 + length (x :: a) + length b0 + length (y :: b)) with (rbs r1 + length a0 + S (length a) + (length b0 + 1) + length b) by (cbn; lia);
        apply H; lia| |].
      * intros st r' (Q & Er & a1 & a2 & b1 & b2 & out' & -> & Ea & Eb & Em & Ep). split; [eapply quiet_trans; eauto|].
        split; [exact Er|]. exists a1, a2, (y :: b1), b2, out'. splits; auto.
        -- cbn [length]. f_equal. f_equal. change (rbs r1) with (rbs r). lia.
        -- now rewrite Eb.
        -- cbn [rev] in Ep. rewrite <- app_assoc in Ep. exact Ep.
      * intros r' (Bl & Er). split; [eapply blown_trans; eauto|exact Er].
    + assert (A1 : arr r1 (((a0 ++ [x]) ++ a) ++ b0 ++ (y :: b) ++ t)) by (apply arr_tk; rewrite <- (app_assoc a0); exact A).
      assert (H := IH r1 (a0 ++ [x]) a b0 (y :: b) (x :: out) A1). rewrite app_length in H. cbn [length] in H, Lf.
      eapply wp_conseq; [replace (rbs r + length a0 + 1) with (rbs r1 + (length a0 + 1)) by (cbn; lia);
        replace (rbs r + length a0 + length (x :: a)) with (rbs r1 + (length a0 + 1) + length a) by (cbn; lia);
        apply H; lia| |].
      * intros st r' (Q & Er & a1 & a2 & b1 & b2 & out' & -> & Ea & Eb & Em & Ep). split; [eapply quiet_trans; eauto|].
        split; [exact Er|]. exists (x :: a1), a2, b1, b2, out'. splits; auto.
        -- cbn [length]. change (rbs r1) with (rbs r). apply f_equal2; [apply f_equal2; lia|auto].
        -- now rewrite Ea.
        -- cbn [rev] in Ep. rewrite <- app_assoc in Ep. exact Ep.
      * intros r' (Bl & Er). split; [eapply blown_trans; eauto|exact Er].
Qed.

Theorem inplace_merge_ok lt r a b h : arr r (a ++ b ++ [h]) ->
  wp (inplace_merge throws lt (rbs r + length a))
     (fun _ r' => quiet throws (rtk r) (rtk r') /\ keeps r r' /\ arr r' (merged lt a b ++ [h]))
     (fun r' => blown throws (rtk r) (rtk r') /\ r' = adv_tk r (rtk r')) r.
Proof.
  intros A. unfold inplace_merge. assert (Ln := a_len A). rewrite !app_length in Ln. cbn in Ln.
  eapply wp_bind_ret; [reflexivity|]. apply wp_rtick; intros T; [|split; [now apply blown_S|reflexivity]].
  set (r1 := adv_tk r (S (rtk r))). assert (A1 : arr r1 (a ++ b ++ [h])) by now apply arr_tk.
  assert (Q1 : quiet throws (rtk r) (rtk r1)) by now apply quiet_S.
  eapply wp_bind_ret; [reflexivity|]. eapply wp_bind_ret; [reflexivity|].
  assert (H := @merge_loop_ok lt [h] (rsz r) r1 [] a [] b [] A1). cbn [length app rev] in H. rewrite !Nat.add_0_r in H.
  change (rbs r1) with (rbs r) in *. change (rsz r1) with (rsz r) in *.
  replace (rbs r + rsz r) with (rbs r + length a + length b) by lia.
  apply wp_bind. eapply wp_conseq; [apply H; lia| |].
  - intros st r2 (Q & Er & a1 & a2 & b1 & b2 & out & -> & Ea & Eb & Em & Ep).
    assert (A2 : arr r2 (a ++ b ++ [h])) by (rewrite Er; now apply arr_tk).
    assert (B2 : rbs r2 = rbs r) by now rewrite Er.
    assert (Z2 : rsz r2 = rsz r) by now rewrite Er.
    eapply wp_bind_ret.
    { replace (rbs r + length a - (rbs r + length a1)) with (length a2) by (rewrite Ea, app_length; lia). rewrite <- B2.
      apply (@copy_out_ok (b ++ [h])). now rewrite Ea, <- app_assoc in A2. }
    eapply wp_bind_ret.
    { replace (rbs r + length a + length b - (rbs r + length a + length b1)) with (length b2) by (rewrite Eb, app_length; lia).
      replace (rbs r + length a + length b1) with (rbs r2 + length (a ++ b1)) by (rewrite app_length; lia).
      apply (@copy_out_ok [h]). rewrite Eb, <- app_assoc in A2. now rewrite <- app_assoc. }
    rewrite !app_nil_r, !rev_involutive, rev_length.
    assert (E : b2 ++ skipn (length b2) a2 = a2 ++ b2).
    { destruct Em as [->| ->]; cbn; [now rewrite skipn_nil, app_nil_r|now rewrite app_nil_r]. }
    rewrite E, <- Ep.
    eapply wp_conseq; [rewrite <- Z2, <- B2; apply (@put_back_ok r2 (a ++ b) (merged lt a b) h)| |easy].
    + now rewrite <- app_assoc.
    + symmetry. apply merged_perm.
    + intros ? r3 (A3 & K3 & T3). splits; auto.
      * rewrite T3. eapply quiet_trans; [exact Q1|exact Q].
      * unfold keeps in K3. rewrite Er in K3. apply K3.
  - intros r2 (Bl & Er). split; [eapply blown_trans; eauto|exact Er].
Qed.

(** ** sort *)
Theorem ptr_sort_ok ssort r l h : arr r (l ++ [h]) ->
  (forall l', ssort l = Some l' -> Permutation l l') ->
  wp (ptr_sort throws ssort)
     (fun _ r' => quiet throws (rtk r) (rtk r') /\ keeps r r' /\ exists l', arr r' (l' ++ [h]) /\ (length l <= 1 /\ l' = l \/ ssort l = Some l'))
     (fun r' => r' = adv_tk r (S (rtk r)) /\ (throws (rtk r) = true \/ ssort l = None)) r.
Proof.
  intros A P. unfold ptr_sort. assert (Ln := a_len A). rewrite !app_length in Ln. cbn in Ln.
  eapply wp_bind_ret; [reflexivity|]. destruct (Nat.leb_spec (rsz r) 1).
  { apply wp_ret. split; [apply quiet_refl|]. split; [apply keeps_refl|]. exists l. split; auto. left. split; [lia|auto]. }
  apply wp_rtick; intros T; [|auto].
  set (r1 := adv_tk r (S (rtk r))). assert (A1 : arr r1 (l ++ [h])) by now apply arr_tk.
  eapply wp_bind_ret; [reflexivity|]. eapply wp_bind_ret.
  { replace (rsz r) with (length l) by lia. rewrite <- (Nat.add_0_r (rbs r1)). apply (@copy_out_ok [h] l [] r1 []). exact A1. }
  rewrite app_nil_r, rev_involutive. destruct (ssort l) as [l'|] eqn:E; [|apply wp_throw; auto].
  change (rsz r) with (rsz r1).
  eapply wp_conseq; [apply (@put_back_ok r1 l l' h A1); auto| |easy].
  intros ? r2 (A2 & K2 & T2). split; [rewrite T2; now apply quiet_S|]. split; [exact K2|]. exists l'. auto.
Qed.
End Pred.
