(** Correctness of the pointer array of random access indices. *)
From Verif Require Import Prelude RndModel.
Set Implicit Arguments.

(** [arr r f]: the slots from [rbs r] on point to the nodes [f] (the elements and the header
    node), and these point back *)
Record arr (r : rst) (f : list node) : Prop := mkArr {
  a_slot : forall i x, nth_error f i = Some x -> slot r (rbs r + i) = Some x;
  a_up : forall i x, nth_error f i = Some x -> rup r x = Some (rbs r + i);
  a_len : length f = S (rsz r);
  a_cap : rsz r <= rcap r;
  a_all : forall i, i <= rcap r -> slot r (rbs r + i) <> None;
  a_brk : rbs r + rcap r < rbrk r;
  a_new : forall p, rbrk r < p -> slot r p = None;
  a_nd : NoDup f;
  a_nn : ~ In null f }.

(** ** writing an arrangement slot by slot

    [wrt r0 r F W]: [r] is [r0] with the slots in [W] rewritten to [F]; [ro] the slots still to
    be read *)
Record wrt (r0 r : rst) (F : nat -> node) (W : nat -> Prop) : Prop := mkWrt {
  w_in : forall p, W p -> slot r p = Some (F p) /\ rup r (F p) = Some p;
  w_out : forall p, ~ W p -> slot r p = slot r0 p;
  w_up : forall x, (forall p, W p -> F p <> x) -> rup r x = rup r0 x;
  w_none : forall x, rup r0 x <> None -> rup r x <> None;
  w_al : forall p, slot r0 p <> None -> slot r p <> None;
  w_sz : rsz r = rsz r0; w_cap : rcap r = rcap r0; w_bs : rbs r = rbs r0; w_brk : rbrk r = rbrk r0;
  w_tk : rtk r = rtk r0 }.

Lemma wrt_refl r F (W : nat -> Prop) : (forall p, ~ W p) -> wrt r r F W.
Proof. intros H. split; auto. intros p Wp. now apply H in Wp. Qed.
Lemma wrt_ext r0 r F (W W' : nat -> Prop) : wrt r0 r F W -> (forall p, W p <-> W' p) -> wrt r0 r F W'.
Proof.
  intros [A B C D E G H I J K] X. split; auto.
  - intros p Wp. apply A, X, Wp.
  - intros p Np. apply B. intros Wp. apply Np, X, Wp.
  - intros x Hx. apply C. intros p Wp. apply Hx, X, Wp.
Qed.

Definition put_st (r : rst) (p : nat) (x : node) : rst :=
  mkR (upd (slot r) p (Some x)) (upd (rup r) x (Some p)) (rsz r) (rcap r) (rbs r) (rbrk r) (rtk r).
Lemma put_spec r p x : slot r p <> None -> rup r x <> None -> put p x r = Ret tt (put_st r p x).
Proof.
  intros A B. unfold put, bind, wr, rd, set_up. destruct (slot r p); [|easy]. cbn. rewrite upd_eq.
  cbn. destruct (rup r x); [reflexivity|easy].
Qed.
Lemma put2_spec r p x : slot r p <> None -> rup r x <> None -> (wr p x ;;; set_up x p) r = Ret tt (put_st r p x).
Proof.
  intros A B. unfold bind, wr, rd, set_up. destruct (slot r p); [|easy]. cbn.
  destruct (rup r x); [reflexivity|easy].
Qed.
Lemma wrt_put r0 r F (W : nat -> Prop) p :
  wrt r0 r F W -> (forall q, W q -> F q = F p -> q = p) ->
  wrt r0 (put_st r p (F p)) F (fun q => W q \/ q = p).
Proof.
  intros [A B C D E G H I J K] Inj. split; cbn; auto.
  - intros q Wq. unfold upd. destruct (Nat.eqb_spec q p) as [->|N].
    + now rewrite Nat.eqb_refl.
    + destruct Wq as [Wq|]; [|easy]. destruct (Nat.eqb_spec (F q) (F p)) as [Eq|_]; auto.
      now apply Inj in Eq.
  - intros q Nq. rewrite upd_neq by (intros ->; auto). apply B. tauto.
  - intros x Nx. rewrite upd_neq; [|intros ->; now apply (Nx p); auto]. apply C. intros q Wq. apply Nx. auto.
  - intros x Nx. unfold upd. destruct (x =? F p); [easy|auto].
  - intros q Nq. unfold upd. destruct (q =? p); [easy|auto].
Qed.

(** one step of most of the loops below *)
Lemma wp_put {B} (k : unit -> RM B) Q E r0 r F (W : nat -> Prop) p x :
  wrt r0 r F W -> x = F p -> slot r0 p <> None -> rup r0 x <> None ->
  (forall q, W q -> F q = F p -> q = p) ->
  (forall r', wrt r0 r' F (fun q => W q \/ q = p) -> wp (k tt) Q E r') ->
  wp (bind (put p x) k) Q E r.
Proof.
  intros H -> A U Inj K. eapply wp_bind_ret.
  - apply put_spec; [apply (w_al H), A|apply (w_none H), U].
  - apply K. now apply wrt_put.
Qed.
Lemma wp_put1 (Q : unit -> rst -> Prop) E r0 r F (W : nat -> Prop) p x :
  wrt r0 r F W -> x = F p -> slot r0 p <> None -> rup r0 x <> None ->
  (forall q, W q -> F q = F p -> q = p) ->
  (forall r', wrt r0 r' F (fun q => W q \/ q = p) -> Q tt r') ->
  wp (put p x) Q E r.
Proof.
  intros H -> A U Inj K. eapply wp_det.
  - apply put_spec; [apply (w_al H), A|apply (w_none H), U].
  - apply K. now apply wrt_put.
Qed.
Lemma wp_rd {B} (k : node -> RM B) Q E r p x : slot r p = Some x -> wp (k x) Q E r -> wp (bind (rd p) k) Q E r.
Proof. intros H K. unfold wp, bind, rd. now rewrite H. Qed.
Lemma wp_rdw {B} (k : node -> RM B) Q E r0 r F W p x :
  wrt r0 r F W -> ~ W p -> slot r0 p = Some x -> wp (k x) Q E r -> wp (bind (rd p) k) Q E r.
Proof. intros H N Sl. apply wp_rd. now rewrite (w_out H _ N). Qed.
Lemma wp_up {B} (k : nat -> RM B) Q E r x p : rup r x = Some p -> wp (k p) Q E r -> wp (bind (get_up x) k) Q E r.
Proof. intros H K. unfold wp, bind, get_up. now rewrite H. Qed.

(** the arrangement written *)
Lemma nth_inj {A} (f : list A) i j x : NoDup f -> nth_error f i = Some x -> nth_error f j = Some x -> i = j.
Proof.
  intros N A1 A2. eapply NoDup_nth_error; eauto; [|congruence].
  apply nth_error_Some. congruence.
Qed.
Lemma wrt_arr r0 r F (W : nat -> Prop) f f' :
  arr r0 f -> wrt r0 r F W -> Permutation f f' ->
  (forall i x, nth_error f' i = Some x -> W (rbs r0 + i) -> F (rbs r0 + i) = x) ->
  (forall i x, nth_error f' i = Some x -> ~ W (rbs r0 + i) -> nth_error f i = Some x) ->
  (forall p, W p -> exists i, p = rbs r0 + i /\ i < length f') ->
  (forall i, {W (rbs r0 + i)} + {~ W (rbs r0 + i)}) ->
  arr r f'.
Proof.
  intros A H P HF HU HW Dec. assert (N' : NoDup f') by (eapply NoDup_perm; [exact P|apply A]).
  split.
  - intros i x E. rewrite (w_bs H). destruct (Dec i) as [Wi|Nw].
    + rewrite <- (HF i x E Wi). now apply (w_in H).
    + rewrite (w_out H _ Nw). apply (a_slot A). auto.
  - intros i x E. rewrite (w_bs H). destruct (Dec i) as [Wi|Nw].
    + rewrite <- (HF i x E Wi). now apply (w_in H).
    + rewrite (w_up H).
      * apply (a_up A). auto.
      * intros p Wp Ep. destruct (HW p Wp) as (j & -> & Lj).
        destruct (nth_error f' j) as [y|] eqn:Ej; [|apply nth_error_None in Ej; lia].
        assert (y = x) by (rewrite <- (HF j y Ej Wp); auto). subst y.
        assert (j = i) by (eapply (nth_inj (f := f')); eauto). subst. easy.
  - rewrite <- (Permutation_length P), (w_sz H). apply A.
  - rewrite (w_sz H), (w_cap H). apply A.
  - intros i I. rewrite (w_bs H). rewrite (w_cap H) in I. apply (w_al H), (a_all A), I.
  - rewrite (w_bs H), (w_cap H), (w_brk H). apply A.
  - intros p Lp. rewrite (w_brk H) in Lp. rewrite (w_out H); [now apply (a_new A)|].
    intros Wp. destruct (HW p Wp) as (j & -> & Lj). rewrite <- (Permutation_length P), (a_len A) in Lj.
    assert (C := a_cap A). assert (Bk := a_brk A). lia.
  - exact N'.
  - intros I. apply (a_nn A). eapply Permutation_in; [symmetry; exact P|auto].
Qed.

(** slots as prescribed by a list *)
Definition tgt (r : rst) (f : list node) (p : nat) : node := nth (p - rbs r) f null.
Lemma tgt_at r f i x : nth_error f i = Some x -> tgt r f (rbs r + i) = x.
Proof. intros E. unfold tgt. replace (rbs r + i - rbs r) with i by lia. now apply nth_error_nth. Qed.
Lemma tgt_inj r f p q : NoDup f -> rbs r <= p < rbs r + length f -> rbs r <= q < rbs r + length f ->
  tgt r f p = tgt r f q -> p = q.
Proof.
  intros N Lp Lq E. unfold tgt in E. rewrite NoDup_nth in N. apply N in E; lia.
Qed.
Lemma arr_nth r f i : arr r f -> i < length f -> exists x, nth_error f i = Some x /\ slot r (rbs r + i) = Some x /\ rup r x = Some (rbs r + i).
Proof.
  intros A L. destruct (nth_error f i) as [x|] eqn:E; [|apply nth_error_None in E; lia].
  exists x. splits; auto; [now apply (a_slot A)|now apply (a_up A)].
Qed.
Lemma arr_al r f i : arr r f -> i < length f -> slot r (rbs r + i) <> None.
Proof. intros A L. destruct (arr_nth A L) as (x & _ & E & _). congruence. Qed.
Lemma arr_in r f x : arr r f -> In x f -> rup r x <> None.
Proof. intros A I. apply In_nth_error in I as (i & E). rewrite (a_up A _ E). easy. Qed.

Lemma wrt_done r0 r (W : nat -> Prop) f f' :
  arr r0 f -> wrt r0 r (tgt r0 f') W -> Permutation f f' ->
  (forall i x, nth_error f' i = Some x -> ~ W (rbs r0 + i) -> nth_error f i = Some x) ->
  (forall p, W p -> exists i, p = rbs r0 + i /\ i < length f') ->
  (forall i, {W (rbs r0 + i)} + {~ W (rbs r0 + i)}) ->
  arr r f'.
Proof.
  intros A H P HU HW Dec. eapply wrt_arr; eauto. intros i x E _. now apply tgt_at.
Qed.

(** bookkeeping fields other than the counter of calls are the same *)
Definition keeps (r r' : rst) : Prop :=
  rsz r' = rsz r /\ rcap r' = rcap r /\ rbs r' = rbs r /\ rbrk r' = rbrk r.
Lemma keeps_refl r : keeps r r.
Proof. unfold keeps. auto. Qed.
Lemma keeps_trans r r' r'' : keeps r r' -> keeps r' r'' -> keeps r r''.
Proof. unfold keeps. intuition congruence. Qed.
Lemma keeps_wrt r r' F W : wrt r r' F W -> keeps r r'.
Proof. intros [A B C D E G H I J K]. unfold keeps. auto. Qed.

Lemma wrt_done2 r0 r (W : nat -> Prop) f f' :
  arr r0 f -> wrt r0 r (tgt r0 f') W -> Permutation f f' ->
  (forall i x, nth_error f' i = Some x -> ~ W (rbs r0 + i) -> nth_error f i = Some x) ->
  (forall p, W p -> exists i, p = rbs r0 + i /\ i < length f') ->
  (forall i, {W (rbs r0 + i)} + {~ W (rbs r0 + i)}) ->
  arr r f' /\ keeps r0 r /\ rtk r = rtk r0.
Proof. intros A H P B C D. split; [eapply wrt_done; eauto|]. split; [eapply keeps_wrt; eauto|apply (w_tk H)]. Qed.

Definition span (a b p : nat) : Prop := a <= p < b.
Lemma span_dec a b p : {span a b p} + {~ span a b p}.
Proof. unfold span. destruct (le_dec a p), (lt_dec p b); (left; lia) || (right; lia). Qed.
Lemma wrt_span r0 r F a b : wrt r0 r F (span a b) -> forall c, a <= b -> c = b + 1 ->
  forall r', wrt r0 r' F (fun q => span a b q \/ q = b) -> wrt r0 r' F (span a c).
Proof. intros _ c L -> r' H. eapply wrt_ext; eauto. unfold span. intros p; split; lia. Qed.

Lemma extract_loop_ok r0 F lo pend : forall fuel x r,
  wrt r0 r F (span lo x) -> lo <= x <= pend -> pend - x < fuel ->
  (forall p, x <= p < pend -> slot r0 (p + 1) = Some (F p) /\ rup r0 (F p) <> None) ->
  (forall p, x <= p < pend -> slot r0 p <> None) ->
  (forall p q, lo <= p < pend -> lo <= q < pend -> F p = F q -> p = q) ->
  wp (extract_loop fuel x pend) (fun _ r' => wrt r0 r' F (span lo pend)) (fun _ => False) r.
Proof.
  induction fuel as [|fuel IH]; intros x r H Lx Fu Rd Al Inj; [lia|]. cbn [extract_loop].
  destruct (Nat.eqb_spec x pend) as [->|N]; [apply wp_ret; auto|].
  destruct (Rd x) as (R1 & R2); [lia|].
  eapply wp_rdw; [exact H|unfold span; lia|exact R1|].
  eapply wp_put; [exact H|reflexivity|apply Al; lia|exact R2|..].
  - unfold span. intros q Lq. apply Inj; lia.
  - intros r' H'. apply IH; auto; try lia.
    + eapply wrt_ext; [exact H'|]. unfold span. intros p; split; lia.
    + intros p Lp. apply Rd; lia.
    + intros p Lp. apply Al; lia.
Qed.

Lemma shift_up_ok r0 F hi pos : forall fuel x r,
  wrt r0 r F (span (x + 1) hi) -> pos <= x < hi -> x - pos < fuel ->
  (forall p, pos < p <= x -> slot r0 (p - 1) = Some (F p) /\ rup r0 (F p) <> None) ->
  (forall p, pos < p <= x -> slot r0 p <> None) ->
  (forall p q, pos < p < hi -> pos < q < hi -> F p = F q -> p = q) ->
  wp (shift_up fuel x pos) (fun _ r' => wrt r0 r' F (span (pos + 1) hi)) (fun _ => False) r.
Proof.
  induction fuel as [|fuel IH]; intros x r H Lx Fu Rd Al Inj; [lia|]. cbn [shift_up].
  destruct (Nat.eqb_spec x pos) as [->|N]; [apply wp_ret; auto|].
  destruct (Rd x) as (R1 & R2); [lia|].
  eapply wp_rdw; [exact H|unfold span; lia|exact R1|].
  eapply wp_put; [exact H|reflexivity|apply Al; lia|exact R2|..].
  - unfold span. intros q Lq. apply Inj; lia.
  - intros r' H'. apply IH; auto; try lia.
    + eapply wrt_ext; [exact H'|]. unfold span. intros p; split; lia.
    + intros p Lp. apply Rd; lia.
    + intros p Lp. apply Al; lia.
Qed.

Lemma nth_app_l {A} (a b : list A) i : i < length a -> nth_error (a ++ b) i = nth_error a i.
Proof. apply nth_error_app1. Qed.
Lemma nth_app_r {A} (a b : list A) i : length a <= i -> nth_error (a ++ b) i = nth_error b (i - length a).
Proof. apply nth_error_app2. Qed.

(** moving one element forwards *)
Lemma relocate_fw r a n b c : arr r (a ++ n :: b ++ c) ->
  wp (relocate (rbs r + length a + 1 + length b) (rbs r + length a))
     (fun _ r' => arr r' (a ++ b ++ n :: c) /\ keeps r r' /\ rtk r' = rtk r) (fun _ => False) r.
Proof.
  intros A. set (f := a ++ n :: b ++ c) in *. set (f' := a ++ b ++ n :: c).
  assert (P : Permutation f f') by (unfold f, f'; perm).
  assert (Ln : length f' = length f) by (symmetry; now apply Permutation_length).
  assert (Lf : length f = length a + 1 + length b + length c) by (unfold f; rewrite !app_length; cbn; rewrite app_length; lia).
  assert (N' : NoDup f') by (eapply NoDup_perm; [exact P|apply A]).
  assert (Inj : forall p q, rbs r <= p < rbs r + length f -> rbs r <= q < rbs r + length f -> tgt r f' p = tgt r f' q -> p = q).
  { intros p q Lp Lq. apply tgt_inj; auto; lia. }
  unfold relocate. eapply wp_rd.
  { replace (rbs r + length a) with (rbs r + (length a)) by lia. apply (a_slot A). unfold f. rewrite nth_app_r by lia.
    now rewrite Nat.sub_diag. }
  destruct (Nat.ltb_spec (rbs r + length a) (rbs r + length a + 1 + length b)) as [_|]; [|lia].
  assert (At : forall p, rbs r + length a <= p < rbs r + length a + length b ->
     slot r (p + 1) = Some (tgt r f' p) /\ rup r (tgt r f' p) <> None).
  { intros p Lp. remember (p - rbs r) as i eqn:Ei. replace p with (rbs r + i) by lia.
    assert (Li : i < length f) by lia.
    assert (E : nth_error f (i + 1) = nth_error f' i).
    { unfold f, f'. rewrite !(nth_app_r a) by lia. replace (i + 1 - length a) with (S (i - length a)) by lia. cbn.
      rewrite !nth_app_l by lia. reflexivity. }
    destruct (arr_nth (i := i + 1) A) as (x & E1 & E2 & E3); [lia|]. rewrite E in E1.
    rewrite (tgt_at r _ _ E1). replace (rbs r + i + 1) with (rbs r + (i + 1)) by lia. split; [exact E2|congruence]. }
  unfold extract. apply wp_bind. eapply wp_conseq; [eapply (extract_loop_ok (r0 := r) (F := tgt r f') (lo := rbs r + length a))| |easy].
  - apply wrt_refl. unfold span. lia.
  - lia.
  - lia.
  - intros p Lp. apply At. lia.
  - intros p Lp. replace p with (rbs r + (p - rbs r)) by lia. apply (arr_al A). lia.
  - intros p q Lp Lq. apply Inj; lia.
  - intros ? r1 H1. set (z := rbs r + length a + 1 + length b - 1) in *.
    assert (Tz : tgt r f' z = n).
    { replace z with (rbs r + (length a + length b)) by (unfold z; lia). apply tgt_at. unfold f'.
      rewrite !nth_app_r by lia. replace (length a + length b - length a - length b) with 0 by lia. reflexivity. }
    assert (In_ : In n f) by (unfold f; rewrite in_app_iff; cbn; auto).
    eapply wp_det.
    + apply put2_spec; [apply (w_al H1)|apply (w_none H1)].
      * replace z with (rbs r + (length a + length b)) by (unfold z; lia). apply (arr_al A). lia.
      * now apply (arr_in n A).
    + rewrite <- Tz. assert (H2 := wrt_put (p := z) H1). eapply (wrt_done2 (f' := f') A).
      * apply H2. unfold span. intros q Lq. apply Inj; unfold z in *; lia.
      * exact P.
      * intros i x E Nw. unfold span in Nw. unfold z in Nw. rewrite <- E. unfold f, f'.
        destruct (Nat.lt_ge_cases i (length a)) as [L1|L1]; [now rewrite !nth_app_l by lia|].
        rewrite !(nth_app_r a) by lia. replace (i - length a) with (S (i - length a - 1)) at 1 by lia. cbn.
        rewrite !(nth_app_r b) by lia. replace (i - length a - length b) with (S (i - length a - 1 - length b)) by lia.
        reflexivity.
      * unfold span, z. intros p Lp. exists (p - rbs r). lia.
      * intros i. unfold span, z. destruct (le_dec (length a) i), (le_dec i (length a + length b)); (left; lia) || (right; lia).
Qed.

(** ... and backwards *)
Lemma relocate_bw r a b n c : arr r (a ++ b ++ n :: c) ->
  wp (relocate (rbs r + length a) (rbs r + length a + length b))
     (fun _ r' => arr r' (a ++ n :: b ++ c) /\ keeps r r' /\ rtk r' = rtk r) (fun _ => False) r.
Proof.
  intros A. set (f := a ++ b ++ n :: c) in *. set (f' := a ++ n :: b ++ c).
  assert (P : Permutation f f') by (unfold f, f'; perm).
  assert (Ln : length f' = length f) by (symmetry; now apply Permutation_length).
  assert (Lf : length f = length a + 1 + length b + length c) by (unfold f; rewrite !app_length; cbn; lia).
  assert (N' : NoDup f') by (eapply NoDup_perm; [exact P|apply A]).
  assert (Inj : forall p q, rbs r <= p < rbs r + length f -> rbs r <= q < rbs r + length f -> tgt r f' p = tgt r f' q -> p = q).
  { intros p q Lp Lq. apply tgt_inj; auto; lia. }
  unfold relocate. eapply wp_rd.
  { rewrite <- Nat.add_assoc. apply (a_slot A). unfold f. rewrite !nth_app_r by lia.
    now replace (length a + length b - length a - length b) with 0 by lia. }
  destruct (Nat.ltb_spec (rbs r + length a + length b) (rbs r + length a)) as [|_]; [lia|].
  apply wp_bind. eapply wp_conseq; [eapply (shift_up_ok (r0 := r) (F := tgt r f') (hi := rbs r + length a + length b + 1))| |easy].
  - apply wrt_refl. unfold span. lia.
  - lia.
  - lia.
  - intros p Lp. remember (p - rbs r) as i eqn:Ei. replace p with (rbs r + i) by lia.
    assert (E : nth_error f (i - 1) = nth_error f' i).
    { unfold f, f'. rewrite !(nth_app_r a) by lia. replace (i - length a) with (S (i - 1 - length a)) by lia. cbn.
      rewrite !nth_app_l by lia. reflexivity. }
    destruct (arr_nth (i := i - 1) A) as (x & E1 & E2 & E3); [lia|]. rewrite E in E1.
    rewrite (tgt_at r _ _ E1). replace (rbs r + i - 1) with (rbs r + (i - 1)) by lia. split; [exact E2|congruence].
  - intros p Lp. replace p with (rbs r + (p - rbs r)) by lia. apply (arr_al A). lia.
  - intros p q Lp Lq. apply Inj; lia.
  - intros ? r1 H1. set (z := rbs r + length a) in *.
    assert (Tz : tgt r f' z = n).
    { apply tgt_at. unfold f'. rewrite nth_app_r by lia. now rewrite Nat.sub_diag. }
    assert (In_ : In n f) by (unfold f; rewrite !in_app_iff; cbn; auto).
    eapply wp_det.
    + apply put2_spec; [apply (w_al H1)|apply (w_none H1)].
      * apply (arr_al A). lia.
      * now apply (arr_in n A).
    + rewrite <- Tz. assert (H2 := wrt_put (p := z) H1). eapply (wrt_done2 (f' := f') A).
      * apply H2. unfold span. intros q Lq. apply Inj; unfold z in *; lia.
      * exact P.
      * intros i x E Nw. unfold span in Nw. unfold z in Nw. rewrite <- E. unfold f, f'.
        destruct (Nat.lt_ge_cases i (length a)) as [L1|L1]; [now rewrite !nth_app_l by lia|].
        rewrite !(nth_app_r a) by lia. replace (i - length a) with (S (i - length a - 1)) at 2 by lia. cbn.
        rewrite !(nth_app_r b) by lia. replace (i - length a - length b) with (S (i - length a - 1 - length b)) by lia.
        reflexivity.
      * unfold span, z. intros p Lp. exists (p - rbs r). lia.
      * intros i. unfold span, z. destruct (le_dec (length a) i), (le_dec i (length a + length b)); (left; lia) || (right; lia).
Qed.
