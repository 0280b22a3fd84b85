(** relocate(pos,first,last): the permutation performed in place by cycles is a rotation. *)
From Verif Require Import Prelude RndModel RndProofs.
Set Implicit Arguments.

(** ** cycles of j -> (j+m) mod n *)
Section Orbit.
Variable n m : nat.
Hypothesis n0 : n <> 0.
Hypothesis mn : m <= n.
Notation p := (Nat.gcd n m).
Notation q := (n / p).

Lemma p0 : p <> 0.
Proof. intros E. apply Nat.gcd_eq_0_l in E. easy. Qed.
Lemma npq : n = p * q.
Proof. destruct (Nat.gcd_divide_l n m) as (c & E). rewrite E at 3. rewrite Nat.div_mul by apply p0. lia. Qed.
Lemma mpm : m = p * (m / p).
Proof. destruct (Nat.gcd_divide_r n m) as (c & E). rewrite E at 3. rewrite Nat.div_mul by apply p0. lia. Qed.
Lemma q0 : 0 < q.
Proof. assert (E := npq). assert (q <> 0); [|lia]. intros Z. rewrite Z in E. lia. Qed.
Lemma coprime : Nat.gcd q (m / p) = 1.
Proof. apply Nat.gcd_div_gcd; [apply p0|reflexivity]. Qed.

Lemma step_mod j : j < n -> (if j <? n - m then j + m else j - (n - m)) = (j + m) mod n.
Proof.
  intros L. destruct (Nat.ltb_spec j (n - m)).
  - symmetry. apply Nat.mod_small. lia.
  - assert (E : j + m = (j - (n - m)) + 1 * n) by lia. rewrite E, Nat.mod_add by auto. symmetry. apply Nat.mod_small. lia.
Qed.

Lemma mod_mod_p x : (x mod n) mod p = x mod p.
Proof.
  assert (E := Nat.div_mod x n n0). destruct (Nat.gcd_divide_l n m) as (c & Ec).
  assert (G := p0). set (g := p) in *. clearbody g.
  assert (E2 : x = x mod n + (c * (x / n)) * g).
  { generalize dependent (x / n). generalize (x mod n). intros y d E. nia. }
  rewrite E2 at 2. now rewrite Nat.mod_add.
Qed.
Lemma mod_eq a b : a <= b -> a mod n = b mod n -> exists k, b = a + k * n.
Proof.
  intros L E. assert (Ea := Nat.div_mod a n n0). assert (Eb := Nat.div_mod b n n0). exists (b / n - a / n).
  assert (a / n <= b / n) by (apply Nat.div_le_mono; auto). nia.
Qed.

Variable i : nat.
Hypothesis ip : i < p.
Definition orb (t : nat) : nat := (i + t * m) mod n.

Lemma i_n : i < n.
Proof. assert (E := npq). assert (Q := q0). nia. Qed.
Lemma orb_lt t : orb t < n.
Proof. apply Nat.mod_upper_bound, n0. Qed.
Lemma orb_0 : orb 0 = i.
Proof. unfold orb. rewrite Nat.mul_0_l, Nat.add_0_r. apply Nat.mod_small, i_n. Qed.
Lemma orb_S t : (orb t + m) mod n = orb (S t).
Proof. unfold orb. rewrite Nat.add_mod_idemp_l by auto. f_equal. lia. Qed.
Lemma orb_q : orb q = i.
Proof.
  unfold orb. replace (q * m) with ((m / p) * n).
  - rewrite Nat.mod_add by auto. apply Nat.mod_small, i_n.
  - assert (E := npq). assert (E2 := mpm). generalize dependent (m / p). generalize dependent q. intros a E b E2.
    generalize dependent p. intros g E E2. nia.
Qed.
Lemma orb_inj t t' : t < t' < q -> orb t <> orb t'.
Proof.
  intros L E. unfold orb in E. apply mod_eq in E as (k & E); [|nia].
  assert (D : Nat.divide q ((m / p) * (t' - t))).
  { exists k. assert (En := npq). assert (Em := mpm). set (g := p) in *. set (w := q) in *. set (u := m / g) in *.
    assert (E2 : (t' - t) * m = k * n) by nia. rewrite En, Em in E2.
    assert (g <> 0) by apply p0. apply (Nat.mul_cancel_l _ _ g); auto. lia. }
  apply Nat.gauss in D; [|apply coprime]. destruct D as (c & D). destruct c; [lia|]. nia.
Qed.
Lemma orb_p t : orb t mod p = i.
Proof.
  unfold orb. rewrite mod_mod_p. rewrite mpm at 1. replace (i + t * (p * (m / p))) with (i + t * (m / p) * p) by lia.
  rewrite Nat.mod_add by apply p0. now apply Nat.mod_small.
Qed.
Lemma orb_all u : u < n -> u mod p = i -> exists t, t < q /\ u = orb t.
Proof.
  intros L E.
  assert (N : NoDup (map orb (seq 0 q))).
  { rewrite NoDup_nth with (d := 0). rewrite map_length, seq_length. intros a b La Lb.
    rewrite !(nth_indep _ 0 (orb 0)) by (rewrite map_length, seq_length; auto). rewrite !map_nth, !seq_nth by auto. cbn.
    intros Eo. destruct (Nat.lt_trichotomy a b) as [X|[X|X]]; auto.
    - now apply (@orb_inj a b) in Eo.
    - symmetry in Eo. now apply (@orb_inj b a) in Eo. }
  assert (I : incl (map orb (seq 0 q)) (map (fun c => i + p * c) (seq 0 q))).
  { intros x Ix. apply in_map_iff in Ix as (t & <- & It). apply in_map_iff. exists (orb t / p).
    assert (Ep := orb_p t). assert (Ed := Nat.div_mod (orb t) p p0). split; [lia|]. apply in_seq. split; [lia|]. cbn.
    apply Nat.div_lt_upper_bound; [apply p0|]. rewrite <- npq. apply orb_lt. }
  assert (J : incl (map (fun c => i + p * c) (seq 0 q)) (map orb (seq 0 q))).
  { apply NoDup_length_incl; auto. now rewrite !map_length. }
  assert (Iu : In u (map orb (seq 0 q))).
  { apply J, in_map_iff. exists (u / p). assert (Ed := Nat.div_mod u p p0). split; [lia|]. apply in_seq. split; [lia|]. cbn.
    apply Nat.div_lt_upper_bound; [apply p0|]. now rewrite <- npq. }
  apply in_map_iff in Iu as (t & <- & It). apply in_seq in It. exists t. split; [lia|auto].
Qed.
End Orbit.

Lemma wp_assoc_rd {B} p q (k : RM B) Q E r :
  wp (bind (bind (rd p) (fun x => put q x)) (fun _ => k)) Q E r -> wp (x <- rd p ;; put q x ;;; k) Q E r.
Proof. unfold wp, bind. destruct (rd p r); auto. Qed.

Section Rot.
Variable r0 : rst.
Variable F : nat -> node.
Variable begin n m : nat.
Hypothesis n0 : n <> 0.
Hypothesis mn : m <= n.
Hypothesis HF : forall u, u < n -> slot r0 (begin + (u + m) mod n) = Some (F (begin + u)) /\ rup r0 (F (begin + u)) <> None.
Hypothesis Al : forall u, u < n -> slot r0 (begin + u) <> None.
Hypothesis Inj : forall u v, u < n -> v < n -> F (begin + u) = F (begin + v) -> u = v.
Notation p := (Nat.gcd n m).
Notation q := (n / p).

Definition done (i t : nat) (a : nat) : Prop :=
  exists u, a = begin + u /\ u < n /\ (u mod p < i \/ exists t', t' < t /\ u = orb n m i t').

Lemma done_put i t r : wrt r0 r F (done i t) -> i < p -> forall r',
  wrt r0 r' F (fun a => done i t a \/ a = begin + orb n m i t) -> wrt r0 r' F (done i (S t)).
Proof.
  intros _ Li r' H. eapply wrt_ext; [exact H|]. intros a. split.
  - intros [(u & -> & Lu & [X|(t' & Lt & E)])| ->].
    + exists u. auto.
    + exists u. splits; auto. right. exists t'. auto.
    + exists (orb n m i t). splits; auto. apply orb_lt, n0. right. eauto.
  - intros (u & -> & Lu & [X|(t' & Lt & ->)]).
    + left. exists u. auto.
    + destruct (Nat.eq_dec t' t) as [->|N]; auto. left. exists (orb n m i t'). splits; auto. right. exists t'. split; auto. lia.
Qed.
Lemma not_done i t k : i < p -> t < k < q -> ~ done i (S t) (begin + orb n m i k).
Proof.
  intros Li Lt (u & E & Lu & [X|(t' & L' & E')]); assert (Eu : u = orb n m i k) by lia.
  - rewrite Eu, orb_p in X by auto. lia.
  - rewrite Eu in E'. symmetry in E'. apply orb_inj in E'; auto; lia.
Qed.

Lemma cycle_ok i tmp : i < p -> slot r0 (begin + i) = Some tmp -> forall fuel t r,
  wrt r0 r F (done i t) -> t < q -> q - t < 2 * fuel ->
  wp (cycle fuel begin m (n - m) i tmp (orb n m i t)) (fun _ r' => wrt r0 r' F (done i q)) (fun _ => False) r.
Proof.
  intros Li Tmp. assert (Li' : i < n) by (eapply i_n; eauto). assert (O0 : orb n m i 0 = i) by (eapply orb_0; eauto).
  assert (Last : forall t r, wrt r0 r F (done i t) -> S t = q ->
    wp (put (begin + orb n m i t) tmp) (fun _ r' => wrt r0 r' F (done i q)) (fun _ => False) r).
  { intros t r H E. assert (L : orb n m i t < n) by (apply orb_lt; auto). destruct (HF L) as (H1 & H2).
    rewrite orb_S, E, orb_q, Tmp in H1 by auto. injection H1 as ->.
    eapply wp_put1; [exact H|reflexivity|now apply Al|exact H2|..].
    - intros a (u & -> & Lu & _) Eu. apply Inj in Eu; auto.
    - intros r' H'. rewrite <- E. eapply done_put; eauto. }
  assert (Step : forall t r (Q : rst -> Prop), wrt r0 r F (done i t) -> S t < q ->
    (forall r', wrt r0 r' F (done i (S t)) -> Q r') ->
    wp (x <- rd (begin + orb n m i (S t)) ;; put (begin + orb n m i t) x) (fun _ => Q) (fun _ => False) r).
  { intros t r Q H Lt K. assert (L : orb n m i t < n) by (apply orb_lt; auto). destruct (HF L) as (H1 & H2). rewrite orb_S in H1 by auto.
    eapply wp_rdw; [exact H| |exact H1|].
    - intros D. apply (@not_done i t (S t)); auto. destruct D as (u & -> & Lu & D). exists u. splits; auto.
      destruct D as [|(t' & ? & ?)]; auto. right. exists t'. split; auto.
    - eapply wp_put1; [exact H|reflexivity|now apply Al|exact H2|..].
      + intros a (u & -> & Lu & _) Eu. apply Inj in Eu; auto.
      + intros r' H'. apply K. eapply done_put; eauto. }
  induction fuel as [|fuel IH]; intros t r H Lt Fu; [lia|]. cbn [cycle]. cbv zeta.
  rewrite step_mod, orb_S by (auto using orb_lt).
  destruct (Nat.eqb_spec (orb n m i (S t)) i) as [E|N].
  - destruct (Nat.eq_dec (S t) q) as [Eq|Nq]; [now apply Last|]. exfalso.
    assert (E' := eq_trans O0 (eq_sym E)). apply orb_inj in E'; auto. lia.
  - assert (Lt2 : S t < q). { destruct (Nat.eq_dec (S t) q) as [Eq|Nq]; [|lia]. rewrite Eq, orb_q in N by auto. easy. }
    apply wp_assoc_rd. apply wp_bind. apply Step; auto. intros r1 H1.
    rewrite step_mod, orb_S by (auto using orb_lt).
    destruct (Nat.eqb_spec (orb n m i (S (S t))) i) as [E|N2].
    + destruct (Nat.eq_dec (S (S t)) q) as [Eq|Nq]; [now apply Last|]. exfalso.
      assert (E' := eq_trans O0 (eq_sym E)). apply orb_inj in E'; auto. lia.
    + assert (Lt3 : S (S t) < q).
      { destruct (Nat.eq_dec (S (S t)) q) as [Eq|Nq]; [|lia]. rewrite Eq, orb_q in N2 by auto. easy. }
      apply wp_assoc_rd. apply wp_bind. apply Step; auto. intros r2 H2. apply IH; auto. lia.
Qed.

Lemma cycles_ok : forall c i r, i + c = p -> wrt r0 r F (done i 0) ->
  wp (cycles c begin m (n - m) n i) (fun _ r' => wrt r0 r' F (span begin (begin + n))) (fun _ => False) r.
Proof.
  induction c as [|c IH]; intros i r E H; cbn [cycles].
  - apply wp_ret. eapply wrt_ext; [exact H|]. intros a. unfold span. split.
    + intros (u & -> & Lu & _). lia.
    + intros L. exists (a - begin). splits; try lia. left. replace i with p by lia. apply Nat.mod_upper_bound, p0, n0.
  - assert (Li : i < p) by lia. assert (Li' : i < n) by (eapply i_n; eauto). assert (O0 : orb n m i 0 = i) by (eapply orb_0; eauto).
    destruct (slot r0 (begin + i)) as [tmp|] eqn:T; [|now apply Al in T].
    eapply wp_rdw; [exact H| |exact T|].
    + intros (u & Eu & Lu & [X|(t' & L' & _)]); [|lia]. assert (u = i) by lia. subst u.
      rewrite Nat.mod_small in X by auto. lia.
    + apply wp_bind. eapply wp_conseq; [rewrite <- O0 at 2; apply cycle_ok; eauto| |easy].
      * apply q0; auto.
      * assert (q <= n) by (apply Nat.div_le_upper_bound; [apply p0, n0|]; assert (p <> 0) by apply p0, n0; nia). lia.
      * intros ? r1 H1. apply IH; [lia|]. eapply wrt_ext; [exact H1|]. intros z. split.
        -- intros (u & -> & Lu & [X|(t' & L' & ->)]); [exists u|exists (orb n m i t')]; splits; auto; left; [lia|].
           rewrite orb_p by auto. lia.
        -- intros (u & -> & Lu & [X|(t' & L' & _)]); [|lia]. exists u. splits; auto.
           destruct (Nat.eq_dec (u mod p) i) as [Eu|]; [|left; lia]. right. now apply orb_all.
Qed.
End Rot.

(** the rotation of the list *)
Lemma rot_nth {A} (a b : list A) u : u < length a + length b ->
  nth_error (b ++ a) u = nth_error (a ++ b) ((u + length a) mod (length a + length b)).
Proof.
  intros L. destruct (Nat.lt_ge_cases u (length b)) as [Lb|Lb].
  - rewrite Nat.mod_small by lia. rewrite nth_app_l, nth_app_r by lia. f_equal. lia.
  - replace (u + length a) with (u - length b + 1 * (length a + length b)) by lia.
    rewrite Nat.mod_add, Nat.mod_small by lia. rewrite nth_app_r, nth_app_l by lia. reflexivity.
Qed.

Lemma rotate_ok r f1 a b f2 : arr r (f1 ++ a ++ b ++ f2) ->
  wp (cycles (Nat.gcd (length a + length b) (length a)) (rbs r + length f1) (length a)
        (length a + length b - length a) (length a + length b) 0)
     (fun _ r' => arr r' (f1 ++ b ++ a ++ f2) /\ keeps r r' /\ rtk r' = rtk r) (fun _ => False) r.
Proof.
  intros A. set (f := f1 ++ a ++ b ++ f2) in *. set (f' := f1 ++ b ++ a ++ f2).
  destruct (Nat.eq_dec (length a + length b) 0) as [Z|NZ].
  { assert (La : length a = 0) by lia. assert (Lb : length b = 0) by lia.
    apply length_zero_iff_nil in La, Lb. subst. split; [exact A|]. split; [apply keeps_refl|reflexivity]. }
  assert (P : Permutation f f') by (unfold f, f'; perm).
  assert (Ln : length f' = length f) by (symmetry; now apply Permutation_length).
  assert (Lf : length f = length f1 + length a + length b + length f2) by (unfold f; rewrite !app_length; lia).
  assert (N' : NoDup f') by (eapply NoDup_perm; [exact P|apply A]).
  assert (Ef : forall i, i < length a + length b -> nth_error f (length f1 + i) = nth_error (a ++ b) i).
  { intros i L. unfold f. rewrite app_assoc with (l := a), nth_app_r by lia.
    replace (length f1 + i - length f1) with i by lia. apply nth_app_l. rewrite app_length. lia. }
  assert (Ef' : forall i, i < length a + length b -> nth_error f' (length f1 + i) = nth_error (b ++ a) i).
  { intros i L. unfold f'. rewrite app_assoc with (l := b), nth_app_r by lia.
    replace (length f1 + i - length f1) with i by lia. apply nth_app_l. rewrite app_length. lia. }
  eapply wp_conseq; [eapply (@cycles_ok r (tgt r f') (rbs r + length f1) (length a + length b) (length a)); auto; try lia| |easy].
  - intros u L. assert (L' : (u + length a) mod (length a + length b) < length a + length b) by (apply Nat.mod_upper_bound; lia).
    destruct (arr_nth (i := length f1 + (u + length a) mod (length a + length b)) A) as (x & E1 & E2 & E3); [lia|].
    rewrite Ef, <- rot_nth, <- Ef' in E1 by auto.
    rewrite <- !Nat.add_assoc. rewrite (tgt_at r _ _ E1). split; [exact E2|congruence].
  - intros u L. rewrite <- Nat.add_assoc. apply (arr_al A). lia.
  - intros u v L1 L2 E. apply tgt_inj in E; auto; lia.
  - apply wrt_refl. intros p (u & -> & L & [X|(t & X & _)]); lia.
  - intros ? r1 H1. cbv beta in H1. eapply (wrt_done2 (f' := f') A); [exact H1|exact P|..].
    + intros i x E N. unfold span in N. rewrite <- E. unfold f, f'.
      destruct (Nat.lt_ge_cases i (length f1)) as [L1|L1]; [now rewrite !nth_app_l by lia|].
      rewrite !(nth_app_r f1) by lia. rewrite !app_assoc, !(nth_app_r (_ ++ _)) by (rewrite app_length; lia).
      f_equal. rewrite !app_length. lia.
    + unfold span. intros p Lp. exists (p - rbs r). lia.
    + intros i. apply span_dec.
Qed.

(** relocate(pos,first,last) with pos before [first,last) *)
Theorem relocate_range_bw r f1 a b f2 : arr r (f1 ++ a ++ b ++ f2) -> a <> [] ->
  wp (relocate_range (rbs r + length f1) (rbs r + length f1 + length a) (rbs r + length f1 + length a + length b))
     (fun _ r' => arr r' (f1 ++ b ++ a ++ f2) /\ keeps r r' /\ rtk r' = rtk r) (fun _ => False) r.
Proof.
  intros A Na. assert (length a <> 0) by (intros E; apply length_zero_iff_nil in E; easy). unfold relocate_range.
  destruct (Nat.ltb_spec (rbs r + length f1) (rbs r + length f1 + length a)) as [L|L]; [|lia].
  replace (rbs r + length f1 + length a + length b - (rbs r + length f1)) with (length a + length b) by lia.
  replace (rbs r + length f1 + length a - (rbs r + length f1)) with (length a) by lia.
  now apply rotate_ok.
Qed.
(** ... and with [first,last) before pos *)
Theorem relocate_range_fw r f1 a b f2 : arr r (f1 ++ a ++ b ++ f2) ->
  wp (relocate_range (rbs r + length f1 + length a + length b) (rbs r + length f1) (rbs r + length f1 + length a))
     (fun _ r' => arr r' (f1 ++ b ++ a ++ f2) /\ keeps r r' /\ rtk r' = rtk r) (fun _ => False) r.
Proof.
  intros A. unfold relocate_range.
  destruct (Nat.ltb_spec (rbs r + length f1 + length a + length b) (rbs r + length f1)) as [L|L]; [lia|].
  replace (rbs r + length f1 + length a + length b - (rbs r + length f1)) with (length a + length b) by lia.
  replace (rbs r + length f1 + length a - (rbs r + length f1)) with (length a) by lia.
  now apply rotate_ok.
Qed.
