(** Proofs about Threads.v: the threads' locks. *)
From Coq Require Import Arith Bool List Lia.
From Verif Require Import Threads.
Import ListNotations.
Set Implicit Arguments.

(** the mutexes locked by steps *)
Definition hold (h : list nat) (x : ins) : list nat :=
  match x with Lock m => m :: h | Unlock m => remove Nat.eq_dec m h | _ => h end.
Definition holds (l : list ins) : list nat := fold_left hold l [].
(** the container looked at or changed *)
Definition touches (x : ins) : option nat :=
  match x with
  | Lock _ | Unlock _ => None
  | Read c | Push _ c | Cut _ c | Cut_same _ c | Read2 c | Prepend c => Some c
  end.
Definition is_unlock (x : ins) : bool := match x with Unlock _ => true | _ => false end.
Definition unlocking (l : list ins) : bool := existsb is_unlock l.

Lemma holds_snoc : forall l x, holds (l ++ [x]) = hold (holds l) x.
Proof. intros; unfold holds; now rewrite fold_left_app. Qed.
Lemma firstn_snoc : forall A (l : list A) n x, nth_error l n = Some x -> firstn (S n) l = firstn n l ++ [x].
Proof. intros A l; induction l; intros [|n] x H; simpl in *; try discriminate. - now inversion H. - f_equal; auto. Qed.

Record good (pre : list ins) (x : ins) : Prop := {
  g_lock : forall m, x = Lock m -> (forall h, In h (holds pre) -> h < m) /\ unlocking pre = false /\ forall y, In y pre -> touches y = None;
  g_unlock : forall m, x = Unlock m -> In m (holds pre);
  g_touch : forall c, touches x = Some c -> In c (holds pre) /\ unlocking pre = false;
  g_pre : unlocking pre = false -> forall y c, In y pre -> touches y = Some c -> In c (holds pre) }.

Definition goodb_all (l : list ins) : Prop := forall n x, nth_error l n = Some x -> good (firstn n l) x.

Ltac inv1 :=
  match goal with
  | H : _ \/ _ |- _ => destruct H as [H|H]
  | H : False |- _ => destruct H
  | H : Some _ = Some _ |- _ => inversion H; clear H; subst
  | H : Lock _ = Lock _ |- _ => inversion H; clear H; subst
  | H : Unlock _ = Unlock _ |- _ => inversion H; clear H; subst
  end.
Ltac close := repeat inv1; subst; simpl in *; try discriminate; repeat inv1; subst; auto; try lia.
Ltac eqs := repeat match goal with |- context [Nat.eq_dec ?a ?b] => destruct (Nat.eq_dec a b); [try lia|try congruence]; simpl end.
Ltac good_at :=
  constructor; unfold holds; simpl; eqs; intros; repeat split; intros; close.

Lemma good_code : forall o n x, nth_error (code o) n = Some x -> good (firstn n (code o)) x.
Proof.
  intros [i c|i c|i c|i c d] n x H.
  1-3: do 4 (destruct n as [|n]; [simpl in H; inversion H; subst; simpl firstn; good_at|]); destruct n; discriminate.
  unfold code, bilock, biunlock in *.
  destruct (Nat.ltb_spec c d), (Nat.eqb_spec c d); try lia; simpl app in *.
  - do 8 (destruct n as [|n]; [simpl in H; inversion H; subst; simpl firstn; good_at|]); destruct n; discriminate.
  - subst; do 6 (destruct n as [|n]; [simpl in H; inversion H; subst; simpl firstn; good_at|]); destruct n; discriminate.
  - do 8 (destruct n as [|n]; [simpl in H; inversion H; subst; simpl firstn; good_at|]); destruct n; discriminate.
Qed.
Lemma holds_code : forall o, holds (code o) = [].
Proof.
  intros [i c|i c|i c|i c d]; unfold code, bilock, biunlock, holds.
  1-3: simpl; eqs; auto.
  destruct (Nat.ltb_spec c d), (Nat.eqb_spec c d); try lia; simpl; eqs; auto.
Qed.
(** once a mutex is unlocked, only unlocking follows *)
Lemma unlock_last : forall o n m, nth_error (code o) n = Some (Unlock m) -> forall y, In y (skipn n (code o)) -> is_unlock y = true.
Proof.
  intros [i c|i c|i c|i c d] n m H y.
  1-3: do 4 (destruct n as [|n]; [simpl in H; try discriminate; simpl; intros; repeat inv1; subst; reflexivity|]); destruct n; discriminate.
  unfold code, bilock, biunlock in *.
  destruct (Nat.ltb_spec c d), (Nat.eqb_spec c d); try lia; simpl app in *.
  all: do 8 (destruct n as [|n]; [simpl in H; try discriminate; simpl; intros; repeat inv1; subst; reflexivity|]); destruct n; discriminate.
Qed.
Lemma code_nonempty : forall o, 0 < length (code o).
Proof. intros [| | |]; simpl; lia. Qed.

Definition held (t : thread) : list nat := match todo t with [] => [] | o :: _ => holds (firstn (pc t) (code o)) end.
Definition within (t : thread) : Prop := match todo t with [] => True | o :: _ => pc t < length (code o) end.

Lemma next_some : forall t x, next_ins t = Some x -> exists o os, todo t = o :: os /\ nth_error (code o) (pc t) = Some x.
Proof. intros t x H; unfold next_ins in H; destruct (todo t) as [|o os]; [discriminate|eauto]. Qed.
Lemma held_advance : forall t x r, next_ins t = Some x -> held (advance t r) = hold (held t) x.
Proof.
  intros t x r H; destruct (next_some _ H) as (o & os & E & N); unfold advance, held; rewrite E.
  rewrite <- holds_snoc, <- (firstn_snoc _ _ N).
  destruct (Nat.eqb_spec (S (pc t)) (length (code o))) as [Q|Q]; cbn [todo pc].
  - rewrite Q, firstn_all, holds_code; destruct os; reflexivity.
  - reflexivity.
Qed.
Lemma within_advance : forall t x r, next_ins t = Some x -> within (advance t r).
Proof.
  intros t x r H; destruct (next_some _ H) as (o & os & E & N); unfold advance, within; rewrite E.
  pose proof (proj1 (nth_error_Some (code o) (pc t)) ltac:(congruence)).
  destruct (Nat.eqb_spec (S (pc t)) (length (code o))) as [Q|Q]; cbn [todo pc].
  - destruct os; auto; apply code_nonempty.
  - lia.
Qed.
Lemma good_next : forall t x o os, next_ins t = Some x -> todo t = o :: os -> good (firstn (pc t) (code o)) x.
Proof. intros t x o os H E; unfold next_ins in H; rewrite E in H; now apply good_code. Qed.
Lemma lock_up : forall t m, next_ins t = Some (Lock m) -> forall h, In h (held t) -> h < m.
Proof.
  intros t m H; destruct (next_some _ H) as (o & os & E & N); unfold held; rewrite E.
  exact (proj1 (g_lock (good_next _ H E) eq_refl)).
Qed.
Lemma unlock_held : forall t m, next_ins t = Some (Unlock m) -> In m (held t).
Proof.
  intros t m H; destruct (next_some _ H) as (o & os & E & N); unfold held; rewrite E.
  exact (g_unlock (good_next _ H E) eq_refl).
Qed.
Lemma touch_held : forall t x c, next_ins t = Some x -> touches x = Some c -> In c (held t).
Proof.
  intros t x c H T; destruct (next_some _ H) as (o & os & E & N); unfold held; rewrite E.
  exact (proj1 (g_touch (good_next _ H E) T)).
Qed.

Lemma put_eq : forall A (f : nat -> A) k v, put f k v k = v.
Proof. intros; unfold put; now rewrite Nat.eqb_refl. Qed.
Lemma put_ne : forall A (f : nat -> A) k v j, j <> k -> put f k v j = f j.
Proof. intros; unfold put; destruct (Nat.eqb_spec j k); congruence. Qed.

Section Same.
Variable same : nat -> nat -> bool.
Notation step := (step same).
Notation reach := (reach same).

Record J (g : cfg) : Prop := {
  j_within : forall t, within (thr g t);
  j_own : forall m t, own g m = Some t <-> In m (held (thr g t)) }.

Lemma J_start : forall p s, J (start p s).
Proof.
  intros; constructor; intros; unfold start, within, held; simpl.
  - destruct (p t); auto; apply code_nonempty.
  - destruct (p t); simpl; intuition congruence.
Qed.
Lemma in_remove_iff : forall m k l, In k (remove Nat.eq_dec m l) <-> In k l /\ k <> m.
Proof. intros; split; [apply in_remove|intros []; now apply in_in_remove]. Qed.
Lemma J_step : forall g g', J g -> step g g' -> J g'.
Proof.
  intros g g' [W O] S; destruct S as [g t m N F|g t m N F|g t x r s N L U E]; constructor; cbn [thr own]; intros.
  - unfold put; destruct (t0 =? t); auto; eapply within_advance; eauto.
  - destruct (Nat.eq_dec t0 t) as [->|T].
    + rewrite put_eq, (held_advance _ _ N); simpl; destruct (Nat.eq_dec m0 m) as [->|M].
      * rewrite put_eq; tauto.
      * rewrite put_ne, O by auto; intuition congruence.
    + rewrite (put_ne (thr g)) by auto; destruct (Nat.eq_dec m0 m) as [->|M].
      * rewrite put_eq, <- O; intuition congruence.
      * now rewrite put_ne, O by auto.
  - unfold put; destruct (t0 =? t); auto; eapply within_advance; eauto.
  - destruct (Nat.eq_dec t0 t) as [->|T].
    + rewrite put_eq, (held_advance _ _ N); simpl; rewrite in_remove_iff; destruct (Nat.eq_dec m0 m) as [->|M].
      * rewrite put_eq; intuition congruence.
      * rewrite put_ne, O by auto; intuition congruence.
    + rewrite (put_ne (thr g)) by auto; destruct (Nat.eq_dec m0 m) as [->|M].
      * rewrite put_eq, <- O; intuition congruence.
      * now rewrite put_ne, O by auto.
  - unfold put; destruct (t0 =? t); auto; eapply within_advance; eauto.
  - destruct (Nat.eq_dec t0 t) as [->|T].
    + rewrite put_eq, (held_advance _ _ N), O; destruct x; simpl; try tauto; [now destruct (L m0)|now destruct (U m0)].
    + now rewrite put_ne, O by auto.
Qed.
Lemma J_reach : forall p s g, reach (start p s) g -> J g.
Proof. induction 1; eauto using J_start, J_step. Qed.

(** ** no thread waits forever *)
Definition done (g : cfg) : Prop := forall t, todo (thr g t) = [].
Definition mentions (o : op) : list nat := match o with Attach _ c | Detach _ c | Equivalent _ c => [c] | Transfer _ c d => [c; d] end.

Lemma lock_mentioned : forall o m, In (Lock m) (code o) -> In m (mentions o).
Proof.
  intros [i c|i c|i c|i c d] m; unfold code, bilock, biunlock.
  1-3: simpl; intuition congruence.
  destruct (Nat.ltb_spec c d), (Nat.eqb_spec c d); try lia; simpl; intuition congruence.
Qed.

(** a thread can make a step, or is about to do something undefined, or waits for a mutex *)
Lemma can : forall g t x, J g -> next_ins (thr g t) = Some x ->
  (exists g', step g g') \/ wrong same g t \/ exists m u, x = Lock m /\ own g m = Some u.
Proof.
  intros g t x Hj N.
  destruct x as [m|m| | | | | |] eqn:X.
  - destruct (own g m) as [u|] eqn:E; [right; right; eauto|left; eexists; eapply step_lock; eauto].
  - left; eexists; eapply step_unlock; eauto. apply (j_own Hj); now apply unlock_held.
  - destruct (exec same x (reg (thr g t)) (ch g)) as [[r s]|] eqn:E; subst x; [left; eexists; eapply step_access; eauto; discriminate|right; left; eexists; split; eauto].
  - destruct (exec same x (reg (thr g t)) (ch g)) as [[r s]|] eqn:E; subst x; [left; eexists; eapply step_access; eauto; discriminate|right; left; eexists; split; eauto].
  - destruct (exec same x (reg (thr g t)) (ch g)) as [[r s]|] eqn:E; subst x; [left; eexists; eapply step_access; eauto; discriminate|right; left; eexists; split; eauto].
  - destruct (exec same x (reg (thr g t)) (ch g)) as [[r s]|] eqn:E; subst x; [left; eexists; eapply step_access; eauto; discriminate|right; left; eexists; split; eauto].
  - destruct (exec same x (reg (thr g t)) (ch g)) as [[r s]|] eqn:E; subst x; [left; eexists; eapply step_access; eauto; discriminate|right; left; eexists; split; eauto].
  - destruct (exec same x (reg (thr g t)) (ch g)) as [[r s]|] eqn:E; subst x; [left; eexists; eapply step_access; eauto; discriminate|right; left; eexists; split; eauto].
Qed.
Lemma holder_runs : forall g m u, J g -> own g m = Some u -> exists x, next_ins (thr g u) = Some x.
Proof.
  intros g m u Hj E; apply (j_own Hj) in E; pose proof (j_within Hj u) as W; unfold held, within, next_ins in *.
  destruct (todo (thr g u)) as [|o os]; [destruct E|].
  destruct (nth_error (code o) (pc (thr g u))) eqn:N; eauto. apply nth_error_None in N; lia.
Qed.
(** [B] bounds the addresses the threads deal with *)
Definition bounded (B : nat) (g : cfg) : Prop := forall t o m, In o (todo (thr g t)) -> In m (mentions o) -> m < B.
Lemma progress : forall B g, J g -> bounded B g -> forall k m u, B - m <= k -> own g m = Some u ->
  (exists g', step g g') \/ exists t, wrong same g t.
Proof.
  intros B g Hj HB; induction k; intros m u K E; destruct (holder_runs _ Hj E) as [x N];
    destruct (can _ Hj N) as [R|[R|(m' & v & -> & E')]]; eauto;
    pose proof (@lock_up _ _ N _ (proj1 (j_own Hj _ _) E));
    destruct (next_some _ N) as (o & os & T & C);
    assert (m' < B) by (apply (HB u o); [rewrite T; now left|apply lock_mentioned; eapply nth_error_In; eauto]).
  - lia.
  - apply (IHk m' v); [lia|auto].
Qed.
Lemma todo_step : forall g g' t o, step g g' -> In o (todo (thr g' t)) -> In o (todo (thr g t)).
Proof.
  assert (A : forall th r o, In o (todo (advance th r)) -> In o (todo th)).
  { intros th r o; unfold advance; destruct (todo th) as [|a l] eqn:E; [now rewrite E|]; destruct (S (pc th) =? _); simpl; auto. }
  intros g g' t o S; destruct S; cbn [thr]; unfold put; destruct (Nat.eqb_spec t t0); subst; eauto.
Qed.
Lemma todo_reach : forall p s g t o, reach (start p s) g -> In o (todo (thr g t)) -> In o (p t).
Proof. induction 1; intros; eauto using todo_step. Qed.
Lemma bound : forall n (p : nat -> list op), (forall t, n <= t -> p t = []) -> exists B, forall t o m, In o (p t) -> In m (mentions o) -> m < B.
Proof.
  intros n p H. exists (S (list_max (flat_map (fun t => flat_map mentions (p t)) (seq 0 n)))); intros t o m O M.
  destruct (le_lt_dec n t) as [L|L]; [rewrite (H t L) in O; destruct O|].
  apply le_n_S. pose proof (proj1 (list_max_le (flat_map (fun t => flat_map mentions (p t)) (seq 0 n)) _) (le_n _)) as F.
  rewrite Forall_forall in F; apply F. apply in_flat_map; exists t; split; [apply in_seq; lia|apply in_flat_map; eauto].
Qed.
Lemma no_deadlock : forall n p s g, (forall t, n <= t -> p t = []) -> reach (start p s) g ->
  done g \/ (exists g', step g g') \/ exists t, wrong same g t.
Proof.
  intros n p s g H R; pose proof (J_reach R) as Hj; destruct (bound p H) as [B HB].
  assert (D : done g \/ exists t, todo (thr g t) <> []).
  { assert (Z : forall t, n <= t -> todo (thr g t) = []).
    { intros t L; destruct (todo (thr g t)) as [|o l] eqn:E; auto. assert (I : In o (p t)) by (eapply todo_reach; eauto; rewrite E; now left). rewrite (H t L) in I; destruct I. }
    clear - Z; revert Z; induction n; intros Z; [left; intros t; apply Z; lia|].
    destruct (todo (thr g n)) eqn:E; [|right; exists n; congruence].
    apply IHn; intros t L; destruct (Nat.eq_dec t n); [now subst|apply Z; lia]. }
  destruct D as [D|[t T]]; auto; right.
  pose proof (j_within Hj t) as W; unfold within in W.
  destruct (todo (thr g t)) as [|o os] eqn:E; [congruence|].
  destruct (nth_error (code o) (pc (thr g t))) as [x|] eqn:N; [|apply nth_error_None in N; lia].
  assert (X : next_ins (thr g t) = Some x) by (unfold next_ins; now rewrite E).
  destruct (can _ Hj X) as [Q|[Q|(m & u & _ & O)]]; eauto.
  apply (progress (B := B) Hj) with (k := B - m) (m := m) (u := u); auto.
  intros t' o' m' I M; apply (HB t' o'); auto; eapply todo_reach; eauto.
Qed.

(** ** threads do not get at the same container at the same time *)
Lemma no_race : forall p s g t u x y c, reach (start p s) g ->
  next_ins (thr g t) = Some x -> next_ins (thr g u) = Some y -> touches x = Some c -> touches y = Some c -> t = u.
Proof.
  intros p s g t u x y c R X Y TX TY; pose proof (J_reach R) as Hj.
  pose proof (proj2 (j_own Hj c t) (@touch_held _ _ _ X TX)); pose proof (proj2 (j_own Hj c u) (@touch_held _ _ _ Y TY)); congruence.
Qed.

(** ** every execution ends *)
Definition cost (t : thread) : nat := fold_right (fun o n => length (code o) + n) 0 (todo t) - pc t.
Lemma cost_advance : forall t x r, within t -> next_ins t = Some x -> S (cost (advance t r)) = cost t.
Proof.
  intros t x r W H; destruct (next_some _ H) as (o & os & E & N); unfold cost, advance, within in *; rewrite E in *.
  destruct (Nat.eqb_spec (S (pc t)) (length (code o))) as [Q|Q]; cbn [todo pc fold_right]; lia.
Qed.
Definition total (n : nat) (g : cfg) : nat := fold_right (fun t k => cost (thr g t) + k) 0 (seq 0 n).
Lemma total_put : forall l (f : nat -> thread) t v, NoDup l -> In t l -> S (cost v) = cost (f t) ->
  S (fold_right (fun u k => cost (put f t v u) + k) 0 l) = fold_right (fun u k => cost (f u) + k) 0 l.
Proof.
  assert (Z : forall l (f : nat -> thread) t v, ~ In t l -> fold_right (fun u k => cost (put f t v u) + k) 0 l = fold_right (fun u k => cost (f u) + k) 0 l).
  { induction l; intros f t v I; simpl in *; auto; rewrite IHl, put_ne by tauto; auto. }
  induction l; intros f t v ND I C; [destruct I|]; inversion ND; subst; simpl.
  destruct (Nat.eq_dec t a) as [->|A]; [rewrite Z, put_eq by auto; lia|].
  destruct I as [->|I]; [congruence|]. rewrite put_ne by auto. rewrite <- (IHl f t v) by auto. lia.
Qed.
Lemma total_step : forall n g g', J g -> (forall t, n <= t -> todo (thr g t) = []) -> step g g' -> S (total n g') = total n g.
Proof.
  assert (K : forall n g t x r, J g -> (forall t, n <= t -> todo (thr g t) = []) -> next_ins (thr g t) = Some x ->
    S (fold_right (fun u k => cost (put (thr g) t (advance (thr g t) r) u) + k) 0 (seq 0 n)) = total n g).
  { intros n g t x r Hj H N; apply total_put; [apply seq_NoDup| |eapply cost_advance; eauto; apply (j_within Hj)].
    apply in_seq; destruct (le_lt_dec n t) as [L|L]; [|lia]. destruct (next_some _ N) as (o & os & E & _); rewrite (H t L) in E; discriminate. }
  intros n g g' Hj H S; destruct S; eapply K; eauto.
Qed.
End Same.
