(** C60: safe iterators used by several threads. *)
From Coq Require Import Arith Bool List Lia.
From Verif Require Import Threads ThreadsOk ThreadsSerial.
Import ListNotations.
Set Implicit Arguments.

(** ** specification *)
Section Same.
Variable same : nat -> nat -> bool.
(** whether an iterator leaves the container with i: it is attached to it, and equivalent to i but not the same one *)
Definition leaves (i c : nat) (w : nat -> option nat) (j : nat) : bool :=
  negb (stays same i j) && match w j with Some e => e =? c | None => false end.
(** the container an iterator is attached to after operations of the thread it belongs to, given that to which it was before *)
Definition attached1 (w : nat -> option nat) (o : op) : nat -> option nat :=
  match o with
  | Attach i c => put w i (Some c)
  | Detach i c => put w i None
  | Equivalent i c => fun j => if leaves i c w j then None else w j
  | Transfer i c d => fun j => if leaves i c w j then Some d else w j
  end.
Definition attached (w : nat -> option nat) (l : list op) : nat -> option nat := fold_left attached1 l w.
(** thread t makes and destroys iterators of its own, and erases or transfers elements to which no other thread has iterators *)
Definition proper (who : nat -> nat) (w : nat -> option nat) (t : nat) (l : list op) : Prop :=
  forall l1 o l2, l = l1 ++ o :: l2 ->
    match o with
    | Attach i c => who i = t /\ attached w l1 i = None
    | Detach i c => who i = t /\ attached w l1 i = Some c
    | Equivalent i c => forall j, stays same i j = false -> who j = t
    | Transfer i c d => c <> d /\ forall j, stays same i j = false -> who j = t
    end.
(** the chains of containers are those of iterators attached as told by w *)
Definition chained (s : chains) (w : nat -> option nat) : Prop := forall c, NoDup (s c) /\ forall i, In i (s c) <-> w i = Some c.

(** Any number of threads, whatever they do and in whichever order their steps come: unless all are done one of them can go on. *)
Theorem C60_no_deadlock : forall n p s g, (forall t, n <= t -> p t = []) -> reach same (start p s) g ->
  (forall t, todo (thr g t) = []) \/ (exists g', step same g g') \/ exists t, wrong same g t.
Proof. intros; eapply no_deadlock; eauto. Qed.
(** They cannot go on forever. *)
Theorem C60_ends : forall n p s, (forall t, n <= t -> p t = []) ->
  ~ exists f, f 0 = start p s /\ forall k, step same (f k) (f (S k)).
Proof.
  intros n p s H (f & F0 & F).
  assert (R : forall k, reach same (start p s) (f k)) by (induction k; [rewrite F0; constructor|econstructor; eauto]).
  assert (D : forall k, total n (f k) + k = total n (f 0)).
  { induction k; [lia|]. rewrite <- IHk, <- (@total_step same n (f k) (f (S k))); auto; [lia|eapply J_reach; eauto|].
    intros t L; destruct (todo (thr (f k) t)) as [|o l] eqn:E; auto.
    assert (I : In o (p t)) by (eapply todo_reach; eauto; rewrite E; now left). rewrite (H t L) in I; destruct I. }
  pose proof (D (S (total n (f 0)))); lia.
Qed.
(** No two threads are about to get at the chain of the same container. *)
Theorem C60_no_race : forall p s g t u x y c, reach same (start p s) g ->
  next_ins (thr g t) = Some x -> next_ins (thr g u) = Some y -> touches x = Some c -> touches y = Some c -> t = u.
Proof. intros; eapply no_race; eauto. Qed.
(** What they have done in the end is what they would have done one operation after another, in an order which is that of each thread. *)
Theorem C60_serial : forall p s g, reach same (start p s) g -> (forall t, todo (thr g t) = []) ->
  exists l, (forall t, of_thread t l = p t) /\ exists s', serial same l s = Some s' /\ forall c, ch g c = s' c.
Proof. intros; eapply serializable; eauto. Qed.
(** If something undefined comes up, it does so when operations are done one after another. *)
Theorem C60_undefined : forall p s g t, reach same (start p s) g -> wrong same g t ->
  exists l o, (forall u, exists l', of_thread u (l ++ [(t, o)]) ++ l' = p u) /\
    exists s', serial same l s = Some s' /\ effect same o s' = None.
Proof. intros; eapply wrong_serial; eauto. Qed.

(** ** threads which use iterators of their own *)
Section Own.
Variable who : nat -> nat.
Variable w : nat -> option nat.
Variable p : nat -> list op.
Hypothesis Hp : forall t, proper who w t (p t).

Definition now (l : list (nat * op)) (i : nat) : option nat := attached w (of_thread (who i) l) i.
Lemma attached_snoc : forall l o, attached w (l ++ [o]) = attached1 (attached w l) o.
Proof. intros; unfold attached; now rewrite fold_left_app. Qed.
Definition fine (l : list (nat * op)) (t : nat) (o : op) : Prop :=
  match o with
  | Attach i c => who i = t /\ now l i = None
  | Detach i c => who i = t /\ now l i = Some c
  | Equivalent i c => forall j, stays same i j = false -> who j = t
  | Transfer i c d => c <> d /\ forall j, stays same i j = false -> who j = t
  end.
Lemma leaves_own : forall i c v j t, (forall j, stays same i j = false -> who j = t) -> who j <> t -> leaves i c v j = false.
Proof. intros i c v j t H N; unfold leaves; destruct (stays same i j) eqn:E; auto. now destruct N; apply H. Qed.
Lemma attached1_local : forall w1 w2 o j, w1 j = w2 j -> attached1 w1 o j = attached1 w2 o j.
Proof. intros w1 w2 o j E; destruct o; simpl; unfold put, leaves; rewrite E; auto. Qed.
Lemma now_snoc : forall l t o j, fine l t o -> now (l ++ [(t, o)]) j = attached1 (now l) o j.
Proof.
  intros l t o j F; unfold now at 1; rewrite of_thread_snoc; destruct (Nat.eqb_spec t (who j)) as [->|T].
  - rewrite attached_snoc; now apply attached1_local.
  - fold (now l j). destruct o as [i c|i c|i c|i c d]; simpl in *.
    + rewrite put_ne; auto. intros ->; intuition congruence.
    + rewrite put_ne; auto. intros ->; intuition congruence.
    + now rewrite (leaves_own _ _ _ F) by auto.
    + now rewrite (leaves_own _ _ _ (proj2 F)) by auto.
Qed.
Lemma chained_ext : forall s w1 w2, (forall i, w1 i = w2 i) -> chained s w1 -> chained s w2.
Proof. intros s w1 w2 E C c; destruct (C c) as [A B]; split; auto; intros i; rewrite <- E; auto. Qed.
Lemma NoDup_cut : forall i l, NoDup l -> NoDup (remove Nat.eq_dec i l).
Proof.
  intros i l; induction 1; simpl; [constructor|]. destruct (Nat.eq_dec i x); auto. constructor; auto. intros I; apply in_remove in I; tauto.
Qed.
Lemma effect_own : forall s l t o, (forall u, exists l', of_thread u (l ++ [(t, o)]) ++ l' = p u) -> chained s (now l) ->
  exists s', effect same o s = Some s' /\ chained s' (now (l ++ [(t, o)])).
Proof.
  intros s l t o P C.
  assert (K : fine l t o).
  { destruct (P t) as [l' E]; rewrite of_thread_snoc, Nat.eqb_refl, <- app_assoc in E.
    pose proof (@Hp t _ _ _ (eq_sym E)) as K; destruct o; simpl; auto; destruct K as [K1 K2]; split; auto; unfold now; now rewrite K1. }
  assert (X : forall s', chained s' (attached1 (now l) o) -> chained s' (now (l ++ [(t, o)]))).
  { intros s' Q; eapply chained_ext; [|exact Q]. intros j; symmetry; now apply now_snoc. }
  destruct o as [i c|i c|i c|i c d]; simpl in K; simpl effect.
  - destruct K as [<- K]. exists (set_chain s c (i :: s c)); split; auto; apply X; intros d; destruct (C d) as [N I]; unfold set_chain; simpl; unfold put.
    destruct (Nat.eqb_spec d c) as [->|D].
    + split; [constructor; auto; rewrite I; congruence|]. intros j; simpl; rewrite I.
      destruct (Nat.eqb_spec j i) as [->|J]; intuition congruence.
    + split; auto; intros j; rewrite I; destruct (Nat.eqb_spec j i) as [->|J]; intuition congruence.
  - destruct K as [<- K]. destruct (in_dec Nat.eq_dec i (s c)) as [Q|Q]; [|destruct Q; now apply (proj2 (C c))].
    eexists; split; eauto; apply X; intros d; destruct (C d) as [N I]; unfold set_chain; simpl; unfold put.
    destruct (Nat.eqb_spec d c) as [->|D].
    + split; [now apply NoDup_cut|]. intros j; rewrite in_remove_iff, I.
      destruct (Nat.eqb_spec j i) as [->|J]; intuition congruence.
    + split; auto; intros j; rewrite I; destruct (Nat.eqb_spec j i) as [->|J]; intuition congruence.
  - eexists; split; eauto; apply X; intros d; destruct (C d) as [N I]; unfold set_chain; simpl; unfold leaves.
    destruct (Nat.eqb_spec d c) as [->|D].
    + split; [now apply NoDup_filter|]. intros j; rewrite filter_In, I.
      destruct (stays same i j); simpl; [intuition congruence|]. destruct (now l j) as [e|]; [destruct (Nat.eqb_spec e c)|]; intuition congruence.
    + split; auto; intros j; rewrite I.
      destruct (stays same i j); simpl; [intuition congruence|]. destruct (now l j) as [e|]; [destruct (Nat.eqb_spec e c)|]; intuition congruence.
  - destruct K as [CD K]. eexists; split; eauto; apply X; intros e; unfold set_chain; simpl; unfold leaves.
    destruct (Nat.eqb_spec d c) as [|_]; [congruence|]. destruct (Nat.eqb_spec e d) as [->|ED]; [|destruct (Nat.eqb_spec e c) as [->|EC]].
    + destruct (C c) as [N I], (C d) as [N' I']. split.
      * assert (Ap : forall l1 l2 : list nat, NoDup l1 -> NoDup l2 -> (forall x, In x l1 -> ~ In x l2) -> NoDup (l1 ++ l2)).
        { induction l1; simpl; intros l2 A B D; auto. inversion A; subst. constructor; [rewrite in_app_iff; intros [?|?]; [tauto|eapply D; eauto]|apply IHl1; eauto]. }
        apply Ap; auto; [apply NoDup_rev; now apply NoDup_filter|]. intros x Q; apply in_rev, filter_In in Q as [Q _]. rewrite I in Q; rewrite I'; congruence.
      * intros j; rewrite in_app_iff, <- in_rev, filter_In, I, I'.
        destruct (stays same i j); simpl; [intuition congruence|]. destruct (now l j) as [e|]; [destruct (Nat.eqb_spec e c)|]; intuition congruence.
    + destruct (C c) as [N I]. split; [now apply NoDup_filter|]. intros j; rewrite filter_In, I.
      destruct (stays same i j); simpl; [intuition congruence|]. destruct (now l j) as [e|]; [destruct (Nat.eqb_spec e c)|]; intuition congruence.
    + destruct (C e) as [N I]. split; auto; intros j; rewrite I.
      destruct (stays same i j); simpl; [intuition congruence|]. destruct (now l j) as [e'|]; [destruct (Nat.eqb_spec e' c)|]; intuition congruence.
Qed.
Lemma serial_own : forall s, chained s w -> forall l, (forall u, exists l', of_thread u l ++ l' = p u) ->
  exists s', serial same l s = Some s' /\ chained s' (now l).
Proof.
  intros s C l; induction l as [|[t o] l IH] using rev_ind; intros P; [exists s; split; auto|].
  destruct IH as (s1 & E1 & C1).
  { intros u; destruct (P u) as [l' E]; rewrite of_thread_snoc in E; destruct (t =? u); eauto; rewrite <- app_assoc in E; eauto. }
  destruct (@effect_own s1 l t o P C1) as (s2 & E2 & C2); exists s2; split; auto. rewrite serial_app, E1; simpl; now rewrite E2.
Qed.
End Own.

(** Threads which copy, make and destroy iterators of their own, and erase and transfer elements to which only they have iterators, all
    with the same containers: nothing undefined comes up,
    not all of them wait, and in the end each iterator is in the chain of the container it is attached to, once, and in no other. *)
Theorem C60_own : forall who w n p s g, (forall t, n <= t -> p t = []) -> (forall t, proper who w t (p t)) -> chained s w ->
  reach same (start p s) g ->
  (forall t, ~ wrong same g t) /\
  ((exists g', step same g g') \/
   (forall t, todo (thr g t) = []) /\ chained (ch g) (fun i => attached w (p (who i)) i)).
Proof.
  intros who w n p s g H Hp C R.
  assert (W : forall t, ~ wrong same g t).
  { intros t Q; destruct (C60_undefined R Q) as (l & o & P & s' & E & X).
    destruct (@serial_own who w p Hp s C l) as (s1 & E1 & C1).
    { intros u; destruct (P u) as [l' Z]; rewrite of_thread_snoc in Z; destruct (t =? u); eauto; rewrite <- app_assoc in Z; eauto. }
    rewrite E in E1; inversion E1; subst s1. destruct (@effect_own who w p Hp _ _ _ _ P C1) as (s2 & E2 & _); congruence. }
  split; auto. destruct (C60_no_deadlock H R) as [D|[S|[t Q]]]; [right; split; auto|auto|now destruct (W t)].
  destruct (C60_serial R D) as (l & P & s' & E & A).
  destruct (@serial_own who w p Hp s C l) as (s1 & E1 & C1); [intros u; exists []; now rewrite app_nil_r|].
  rewrite E in E1; inversion E1; subst s1.
  intros c; rewrite A; destruct (C1 c) as [N I]; split; auto; intros i; rewrite I; unfold now; now rewrite P.
Qed.
Lemma part_others : forall o n r s r' s' c i, exec_all same (firstn n (code o)) r s = Some (r', s') ->
  match o with Attach j d | Detach j d => i <> j | Equivalent j d => stays same j i = true | Transfer j d e => d <> e /\ stays same j i = true end ->
  r = r0 -> (In i (s' c) <-> In i (s c)).
Proof.
  assert (X : forall s c d l i, In i l <-> In i (s d) -> In i (set_chain s d l c) <-> In i (s c)).
  { intros s c d l i H; unfold set_chain; destruct (Nat.eqb_spec c d); subst; tauto. }
  assert (F : forall i j l, stays same j i = true -> In i (filter (fun k => negb (moves same j k)) l) <-> In i l).
  { intros i j l H; rewrite filter_In, moves_stays, H; simpl; intuition. }
  assert (G : forall i j l l', stays same j i = true -> In i (rev (filter (moves same j) l) ++ l') <-> In i l').
  { intros i j l l' H; rewrite in_app_iff, <- in_rev, filter_In, moves_stays, H; simpl; intuition discriminate. }
  intros o n r s r' s' c i E H ->; destruct o as [j d|j d|j d|j d e].
  - do 4 (destruct n as [|n]; [simpl in E; inversion E; subst; try tauto; apply X; simpl; intuition congruence|]).
    simpl in E; rewrite firstn_nil in E; simpl in E; inversion E; subst. apply X; simpl; intuition congruence.
  - do 5 (destruct n as [|n]; [simpl in E; try destruct (in_dec Nat.eq_dec j (s d)); inversion E; subst; try tauto;
      apply X; rewrite in_remove_iff; intuition congruence|]).
    simpl in E; destruct (in_dec Nat.eq_dec j (s d)); [|discriminate]; inversion E; subst. apply X; rewrite in_remove_iff; intuition congruence.
  - do 4 (destruct n as [|n]; [simpl in E; inversion E; subst; try tauto; apply X; simpl; auto|]).
    simpl in E; rewrite firstn_nil in E; simpl in E; inversion E; subst. apply X; simpl; auto.
  - destruct H as [D H]. unfold code, bilock, biunlock in E. rewrite (proj2 (Nat.eqb_neq _ _) D) in E. simpl app in E.
    pose (s1 := set_chain s d (filter (fun k => negb (moves same j k)) (s d))).
    assert (P1 : forall c, In i (s1 c) <-> In i (s c)) by (intros c'; apply X; auto).
    assert (P2 : In i (set_chain s1 e (rev (filter (moves same j) (s d)) ++ s1 e) c) <-> In i (s c)) by (rewrite <- P1; apply X, G; auto).
    do 8 (destruct n as [|n]; [simpl in E; inversion E; subst; first [tauto|apply P1|apply P2]|]).
    simpl in E; rewrite firstn_nil in E; simpl in E; inversion E; subst; apply P2.
Qed.
(** Meanwhile, whenever a thread is between two operations, each of its iterators is attached as this thread has left it, whatever
    the others do: what it reads of cont is not out of date when its next operation starts. *)
Theorem C60_undisturbed : forall who w p s g t i, (forall t, proper who w t (p t)) -> chained s w ->
  reach same (start p s) g -> pc (thr g t) = 0 -> who i = t ->
  exists l, p t = l ++ todo (thr g t) /\ forall c, In i (ch g c) <-> attached w l i = Some c.
Proof.
  intros who w p s g t i Hp C R Z <-; destruct (SI_reach R) as (L & s' & I); pose proof (J_reach R) as Hj.
  exists (of_thread (who i) L); split.
  { rewrite <- (si_log I (who i)); unfold remains, committed; rewrite Z; simpl; destruct (todo _); reflexivity. }
  destruct (@serial_own who w p Hp s C L) as (s1 & E1 & C1); [intros u; eexists; exact (si_log I u)|].
  rewrite (si_run I) in E1; inversion E1; subst s1.
  intros c; rewrite <- (proj2 (C1 c) i).
  destruct (own g c) as [u|] eqn:O.
  2: { rewrite (si_free I c); [tauto|]. intros u Q; apply (j_own Hj) in Q; congruence. }
  apply (j_own Hj) in O.
  destruct (committed (thr g u)) eqn:K.
  { rewrite (si_free I c); [tauto|]. intros v Q; now rewrite (disjoint _ _ _ Hj Q O). }
  destruct (todo (thr g u)) as [|o os] eqn:T; [unfold held in O; rewrite T in O; destruct O|].
  destruct (si_part I _ T K) as (s2 & R2 & A2); rewrite (A2 c O).
  apply (@part_others o _ _ _ _ _ c i R2); auto.
  assert (U : u <> who i) by (intros ->; unfold held in O; rewrite T, Z in O; destruct O).
  pose proof (si_log I u) as P; unfold remains in P; rewrite K, T in P.
  pose proof (@Hp u _ _ _ (eq_sym P)) as Q; destruct o as [j d|j d|j d|j d e]; [destruct Q as [Q _]; congruence|destruct Q as [Q _]; congruence| |].
  - destruct (stays same j i) eqn:St; auto. now destruct U; rewrite (Q i St).
  - destruct Q as [Q1 Q2]; split; auto. destruct (stays same j i) eqn:St; auto. now destruct U; rewrite (Q2 i St).
Qed.
(** Each thread can get through its operations from wherever they all are, and there is no other end. *)
Theorem C60_completes : forall who w n p s g, (forall t, n <= t -> p t = []) -> (forall t, proper who w t (p t)) -> chained s w ->
  reach same (start p s) g ->
  (exists g', reach same g g' /\ forall t, todo (thr g' t) = []) /\
  forall g', reach same g g' -> (forall g'', ~ step same g' g'') -> forall t, todo (thr g' t) = [].
Proof.
  intros who w n p s g H Hp C R.
  assert (Tr : forall g1 g2, reach same (start p s) g1 -> reach same g1 g2 -> reach same (start p s) g2) by (induction 2; auto; econstructor; eauto).
  split.
  - remember (total n g) as k; revert g R Heqk; induction k as [|k IH]; intros g R E; destruct (C60_own H Hp C R) as (_ & [[g1 Sp]|[D _]]).
    + pose proof (@total_step same n g g1 (J_reach R)) as T; rewrite <- E in T. exfalso. enough (S (total n g1) = 0) by lia. apply T; auto.
      intros t L; destruct (todo (thr g t)) as [|o l] eqn:Q; auto.
      assert (I : In o (p t)) by (eapply todo_reach; eauto; rewrite Q; now left). rewrite (H t L) in I; destruct I.
    + exists g; split; auto; constructor.
    + assert (T : S (total n g1) = total n g).
      { apply (@total_step same n g g1 (J_reach R)); auto. intros t L; destruct (todo (thr g t)) as [|o l] eqn:Q; auto.
        assert (I : In o (p t)) by (eapply todo_reach; eauto; rewrite Q; now left). rewrite (H t L) in I; destruct I. }
      destruct (IH g1) as (g' & R' & D); [econstructor; eauto|lia|]. exists g'; split; auto.
      clear - R' Sp. induction R'; [econstructor; eauto; constructor|econstructor; eauto].
    + exists g; split; auto; constructor.
  - intros g' R' N. destruct (C60_own H Hp C (Tr _ _ R R')) as (_ & [[g1 Sp]|[D _]]); auto. now destruct (N g1).
Qed.
End Same.

(** ** cases *)
Section Cases.
Let same (i j : nat) : bool := i mod 10 =? j mod 10.
(** a schedule: which thread makes the next step *)
Definition step_fn (g : cfg) (t : nat) : option cfg :=
  match next_ins (thr g t) with
  | None => None
  | Some (Lock m) => match own g m with
      | None => Some (mkC (put (thr g) t (advance (thr g t) (reg (thr g t)))) (put (own g) m (Some t)) (ch g)) | _ => None end
  | Some (Unlock m) => match own g m with
      | Some u => if u =? t then Some (mkC (put (thr g) t (advance (thr g t) (reg (thr g t)))) (put (own g) m None) (ch g)) else None
      | None => None end
  | Some x => match exec same x (reg (thr g t)) (ch g) with
      | Some (r, s) => Some (mkC (put (thr g) t (advance (thr g t) r)) (own g) s) | None => None end
  end.
Fixpoint runs (l : list nat) (g : cfg) : option cfg :=
  match l with [] => Some g | t :: l => match step_fn g t with Some g => runs l g | None => None end end.
Lemma step_fn_ok : forall g t g', step_fn g t = Some g' -> step same g g'.
Proof.
  intros g t g' E; unfold step_fn in E; destruct (next_ins (thr g t)) as [x|] eqn:N; [|discriminate].
  assert (A : forall r s, exec same x (reg (thr g t)) (ch g) = Some (r, s) -> (forall m, x <> Lock m) -> (forall m, x <> Unlock m) ->
    step same g (mkC (put (thr g) t (advance (thr g t) r)) (own g) s)) by (intros; eapply step_access; eauto).
  destruct x; try (destruct (exec same _ _ _) as [[r s]|] eqn:X; [|discriminate]; inversion E; apply (A _ _ eq_refl); discriminate).
  - destruct (own g m) eqn:O; [discriminate|]. inversion E; now apply step_lock.
  - destruct (own g m) as [u|] eqn:O; [|discriminate]. destruct (Nat.eqb_spec u t); [|discriminate]. inversion E; subst; now apply step_unlock.
Qed.
Lemma ahead : forall g g1 g', step same g g1 -> reach same g1 g' -> reach same g g'.
Proof. intros g g1 g' S R; induction R; [eapply reach_step; eauto; constructor|eapply reach_step; eauto]. Qed.
Lemma sched : forall l (P : cfg -> Prop) g, match runs l g with Some g' => P g' | None => False end -> exists g', reach same g g' /\ P g'.
Proof.
  induction l as [|t l IH]; intros P g H; simpl in H; [exists g; split; auto; constructor|].
  destruct (step_fn g t) as [g1|] eqn:E; [|destruct H]. destruct (IH P g1 H) as (g' & R & Q); exists g'; split; auto.
  eapply ahead; eauto. eapply step_fn_ok; eauto.
Qed.

(** two threads splice elements in opposite directions, iterators 1 of container 5 and 2 of container 6: the first has the lock of 5, the other waits for it *)
Let p1 (t : nat) : list op := match t with 0 => [Transfer 1 5 6] | 1 => [Transfer 2 6 5] | _ => [] end.
Let s1 : chains := fun c => match c with 5 => [1; 11] | 6 => [12; 2] | _ => [] end.
Example deadlock_case : (forall t, 2 <= t -> p1 t = []) /\
  exists g, reach same (start p1 s1) g /\ own g 5 = Some 0 /\ next_ins (thr g 1) = Some (Lock 5).
Proof.
  split; [intros [|[|t]] L; auto; lia|].
  apply (sched [0]); vm_compute; auto.
Qed.
(** ... and the first gets through, then the second *)
Example serial_case : exists g, reach same (start p1 s1) g /\ (forall t, todo (thr g t) = []) /\ ch g 5 = [12; 1] /\ ch g 6 = [11; 2].
Proof. apply (sched [1; 1; 1; 1; 1; 1; 1; 1; 0; 0; 0; 0; 0; 0; 0; 0]); vm_compute; split; [intros [|[|t]]; reflexivity|auto]. Qed.
(** two threads get at different containers at the same time *)
Let p2 (t : nat) : list op := match t with 0 => [Attach 21 5; Detach 21 5] | 1 => [Attach 22 6; Transfer 2 6 5; Attach 32 5] | _ => [] end.
Example race_case : exists g, reach same (start p2 s1) g /\ next_ins (thr g 0) = Some (Read 5) /\ next_ins (thr g 1) = Some (Read 6).
Proof. apply (sched [0; 1]); vm_compute; auto. Qed.

(** iterators of threads of their own: those which end in 2 belong to thread 1, the others to thread 0 *)
Let who (i : nat) : nat := if 2 =? i mod 10 then 1 else 0.
Let w1 (i : nat) : option nat := match i with 1 | 11 => Some 5 | 12 | 2 => Some 6 | _ => None end.
Example own_case : (forall t, proper same who w1 t (p2 t)) /\ chained s1 w1 /\
  exists g, reach same (start p2 s1) g /\ (forall t, todo (thr g t) = []) /\ ch g 5 = [32; 12; 22; 1; 11] /\ ch g 6 = [2].
Proof.
  split; [|split].
  - intros t l1 o l2 E; destruct t as [|[|t]]; simpl in E.
    + destruct l1 as [|a [|b [|d l1]]]; simpl in E; inversion E; subst; try (split; reflexivity). all: destruct l1; discriminate.
    + destruct l1 as [|a [|b [|d [|e l1]]]]; simpl in E; inversion E; subst; try (split; reflexivity).
      split; [discriminate|]. unfold stays, same, who; intros j Q. apply orb_false_elim in Q as [_ Q].
      change (2 mod 10) with 2 in Q. destruct (2 =? j mod 10); [reflexivity|discriminate].
    + destruct l1; discriminate.
  - assert (F : forall c, c <> 5 -> c <> 6 -> s1 c = []) by (intros c A B; do 7 (destruct c as [|c]; [reflexivity || congruence|]); reflexivity).
    assert (W : forall i c, w1 i = Some c <-> (c = 5 /\ (i = 1 \/ i = 11)) \/ (c = 6 /\ (i = 12 \/ i = 2))).
    { intros i c; split.
      - do 13 (destruct i as [|i]; [simpl; intros E; inversion E; subst; auto|]); discriminate.
      - intros [[-> [-> | ->]]|[-> [-> | ->]]]; reflexivity. }
    intros c; destruct (Nat.eq_dec c 5) as [->|A]; [|destruct (Nat.eq_dec c 6) as [->|B]; [|rewrite (F c A B)]].
    + split; [repeat (constructor; [simpl; intuition discriminate|]); constructor|].
      intros i; rewrite W; simpl; intuition congruence.
    + split; [repeat (constructor; [simpl; intuition discriminate|]); constructor|].
      intros i; rewrite W; simpl; intuition congruence.
    + split; [constructor|]. intros i; rewrite W; simpl; intuition congruence.
  - apply (sched [1; 1; 1; 0; 1; 0; 0; 0; 1; 1; 1; 1; 1; 1; 1; 1; 1; 1; 1; 1; 0; 0; 0; 0]); vm_compute; split; [intros [|[|t]]; reflexivity|auto].
Qed.
(** thread 0 has attached 21 while thread 1 changes the same chain *)
Example undisturbed_case : exists g, reach same (start p2 s1) g /\ pc (thr g 0) = 0 /\ todo (thr g 0) = [Detach 21 5] /\
  pc (thr g 1) = 6 /\ todo (thr g 1) = [Transfer 2 6 5; Attach 32 5] /\ ch g 5 = [12; 22; 21; 1; 11].
Proof. apply (sched [1; 1; 1; 0; 1; 0; 0; 0; 1; 1; 1; 1; 1; 1]); vm_compute; auto 10. Qed.

(** F10: thread 0 destroys its iterator 11, thread 1 erases the element that it points to by way of 1, which is equivalent.  Thread 0 has
    read the member cont before.  In one order both get through, in the other thread 0 looks for an iterator that has gone *)
Let p3 (t : nat) : list op := match t with 0 => [Detach 11 5] | 1 => [Equivalent 1 5; Detach 1 5] | _ => [] end.
Example erase_while_destroyed :
  (exists g, reach same (start p3 s1) g /\ forall t, todo (thr g t) = []) /\ exists g, reach same (start p3 s1) g /\ wrong same g 0.
Proof.
  split.
  - apply (sched [0; 0; 0; 0; 1; 1; 1; 1; 1; 1; 1; 1]); vm_compute; intros [|[|t]]; reflexivity.
  - apply (sched [1; 1; 1; 1; 0; 0]). cbv beta. vm_compute. eexists; split; [reflexivity|]. right; reflexivity.
Qed.
End Cases.

Print Assumptions C60_no_deadlock.
Print Assumptions C60_ends.
Print Assumptions C60_no_race.
Print Assumptions C60_serial.
Print Assumptions C60_undefined.
Print Assumptions C60_own.
Print Assumptions C60_undisturbed.
Print Assumptions C60_completes.
