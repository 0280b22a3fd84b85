(** Proofs about Threads.v: what threads do together is what they could do one operation after another. *)
From Coq Require Import Arith Bool List Lia.
From Verif Require Import Threads ThreadsOk.
Import ListNotations.
Set Implicit Arguments.

Section Same.
Variable same : nat -> nat -> bool.
Notation step := (step same).
Notation reach := (reach same).
Notation exec := (exec same).

(** ** specification: operations done at once *)
(** i itself stays, and those not equivalent to it *)
Definition stays (i j : nat) : bool := (j =? i) || negb (same i j).
Definition effect (o : op) (s : chains) : option chains :=
  match o with
  | Attach i c => Some (set_chain s c (i :: s c))
  | Detach i c => if in_dec Nat.eq_dec i (s c) then Some (set_chain s c (remove Nat.eq_dec i (s c))) else None
  | Equivalent i c => Some (set_chain s c (filter (stays i) (s c)))
  | Transfer i c d =>
      let s' := set_chain s c (filter (stays i) (s c)) in
      Some (set_chain s' d (rev (filter (fun j => negb (stays i j)) (s c)) ++ s' d))
  end.
Fixpoint serial (l : list (nat * op)) (s : chains) : option chains :=
  match l with [] => Some s | (_, o) :: l => match effect o s with Some s => serial l s | None => None end end.
(** what thread t does in l *)
Definition of_thread (t : nat) (l : list (nat * op)) : list op := map snd (filter (fun x => fst x =? t) l).

Lemma serial_app : forall l l' s, serial (l ++ l') s = match serial l s with Some s' => serial l' s' | None => None end.
Proof. induction l as [|[t o] l IH]; intros; simpl; auto. destruct (effect o s); auto. Qed.
Lemma of_thread_snoc : forall t l u o, of_thread t (l ++ [(u, o)]) = if u =? t then of_thread t l ++ [o] else of_thread t l.
Proof.
  intros; unfold of_thread; rewrite filter_app, map_app; simpl; destruct (u =? t); simpl; auto using app_nil_r.
Qed.

(** ** steps in a row *)
Fixpoint exec_all (l : list ins) (r : regs) (s : chains) : option (regs * chains) :=
  match l with [] => Some (r, s) | x :: l => match exec x r s with Some (r, s) => exec_all l r s | None => None end end.
Lemma exec_all_app : forall l l' r s, exec_all (l ++ l') r s = match exec_all l r s with Some (r, s) => exec_all l' r s | None => None end.
Proof. induction l; intros; simpl; auto. destruct (exec a r s) as [[]|]; auto. Qed.
Lemma moves_stays : forall i j, moves same i j = negb (stays i j).
Proof. intros; unfold moves, stays; now rewrite negb_orb, negb_involutive. Qed.
Lemma exec_all_code : forall o s, match effect o s with Some s' => exists r, exec_all (code o) r0 s = Some (r, s') | None => exec_all (code o) r0 s = None end.
Proof.
  assert (F : forall i l, filter (stays i) l = filter (fun j => negb (moves same i j)) l).
  { intros; apply filter_ext; intros; now rewrite moves_stays, negb_involutive. }
  assert (G : forall i l, filter (fun j => negb (stays i j)) l = filter (moves same i) l).
  { intros; apply filter_ext; intros; now rewrite moves_stays. }
  intros [i c|i c|i c|i c d] s; unfold code, bilock, biunlock; simpl; rewrite ?F, ?G; eauto.
  - destruct (in_dec Nat.eq_dec i (s c)); eauto.
  - destruct (c =? d); simpl; eauto.
Qed.

Definition agree (H : list nat) (s s' : chains) : Prop := forall c, In c H -> s c = s' c.
Lemma exec_agree : forall x r s s' H, (forall c, touches x = Some c -> In c H) -> agree H s s' ->
  match exec x r s, exec x r s' with Some (r1, s1), Some (r2, s2) => r1 = r2 /\ agree H s1 s2 | None, None => True | _, _ => False end.
Proof.
  intros x r s s' H T A.
  assert (P : forall c l, agree H (set_chain s c l) (set_chain s' c l)) by (intros c l d D; unfold set_chain; destruct (d =? c); auto).
  destruct x; simpl in *; auto.
  - split; auto. f_equal; auto.
  - destruct (in_dec Nat.eq_dec i (fst r)); auto.
  - split; auto. f_equal; auto.
Qed.
Lemma exec_frame : forall x r s r' s' d, exec x r s = Some (r', s') -> touches x <> Some d -> s' d = s d.
Proof.
  intros x r s r' s' d E N.
  assert (P : forall c l, Some c <> Some d -> set_chain s c l d = s d) by (intros c l K; unfold set_chain; destruct (Nat.eqb_spec d c); congruence).
  destruct x; simpl in *; try (inversion E; subst; auto; fail).
  destruct (in_dec Nat.eq_dec i (fst r)); inversion E; subst; auto.
Qed.
Lemma exec_all_agree : forall l r s s' H, (forall x c, In x l -> touches x = Some c -> In c H) -> agree H s s' ->
  match exec_all l r s, exec_all l r s' with Some (r1, s1), Some (r2, s2) => r1 = r2 /\ agree H s1 s2 | None, None => True | _, _ => False end.
Proof.
  induction l as [|x l IH]; intros r s s' H T A; simpl; auto.
  pose proof (exec_agree x r (fun c => T x c (or_introl eq_refl)) A) as K.
  destruct (exec x r s) as [[r1 s1]|], (exec x r s') as [[r2 s2]|]; try contradiction; auto.
  destruct K as [-> K]; apply IH; auto; intros; eapply T; eauto; now right.
Qed.
Lemma exec_all_frame : forall l r s r' s' d, exec_all l r s = Some (r', s') -> (forall x, In x l -> touches x <> Some d) -> s' d = s d.
Proof.
  induction l as [|x l IH]; intros r s r' s' d E N; simpl in E; [now inversion E|].
  destruct (exec x r s) as [[r1 s1]|] eqn:X; [|discriminate].
  rewrite (IH _ _ _ _ _ E); [|intros; apply N; now right]. eapply exec_frame; eauto. apply N; now left.
Qed.
Lemma exec_all_idle : forall l r s, (forall x, In x l -> touches x = None) -> exec_all l r s = Some (r, s).
Proof.
  induction l as [|x l IH]; intros r s N; simpl; auto.
  assert (T : touches x = None) by (apply N; now left). destruct x; try discriminate; simpl; apply IH; intros; apply N; now right.
Qed.

(** ** the invariant *)
Definition committed (t : thread) : bool := match todo t with [] => false | o :: _ => unlocking (firstn (pc t) (code o)) end.
Definition remains (t : thread) : list op := if committed t then tl (todo t) else todo t.
Record SI (p : nat -> list op) (s0 : chains) (g : cfg) (L : list (nat * op)) (s : chains) : Prop := {
  si_log : forall t, of_thread t L ++ remains (thr g t) = p t;
  si_run : serial L s0 = Some s;
  si_part : forall t o os, todo (thr g t) = o :: os -> committed (thr g t) = false ->
    exists s', exec_all (firstn (pc (thr g t)) (code o)) r0 s = Some (reg (thr g t), s') /\ agree (held (thr g t)) (ch g) s';
  si_free : forall c, (forall t, In c (held (thr g t)) -> committed (thr g t) = true) -> ch g c = s c }.

Lemma touched_held : forall t o os y c, within t -> todo t = o :: os -> committed t = false -> In y (firstn (pc t) (code o)) -> touches y = Some c -> In c (held t).
Proof.
  intros t o os y c W E C I T; unfold within, committed, held in *; rewrite E in *.
  destruct (nth_error (code o) (pc t)) as [x|] eqn:N; [|apply nth_error_None in N; lia].
  eapply (g_pre (good_code _ _ N)); eauto.
Qed.
Lemma unlocking_snoc : forall l x, unlocking (l ++ [x]) = unlocking l || is_unlock x.
Proof. intros; unfold unlocking; rewrite existsb_app; simpl; now rewrite orb_false_r. Qed.
Lemma last_is_unlock : forall o n x, nth_error (code o) n = Some x -> S n = length (code o) -> is_unlock x = true.
Proof.
  intros [i c|i c|i c|i c d] n x H; unfold code, bilock, biunlock in *.
  1-3: simpl; intros E; inversion E; subst; simpl in H; inversion H; reflexivity.
  destruct (c =? d); simpl in *; intros E; inversion E; subst; simpl in H; inversion H; reflexivity.
Qed.
(** a step which unlocks nothing *)
Lemma advance_on : forall t x r o os, todo t = o :: os -> nth_error (code o) (pc t) = Some x -> is_unlock x = false ->
  advance t r = mkT (o :: os) (S (pc t)) r.
Proof.
  intros t x r o os E N U; unfold advance; rewrite E. destruct (Nat.eqb_spec (S (pc t)) (length (code o))) as [Q|Q]; auto.
  rewrite (@last_is_unlock _ _ _ N Q) in U; discriminate.
Qed.
Lemma SI_start : forall p s, SI p s (start p s) [] s.
Proof.
  intros p s; constructor; simpl; auto.
  - intros t; unfold remains, committed, start; simpl; destruct (p t); reflexivity.
  - intros t o os E C; exists s; split; auto. intros c _; auto.
Qed.
Lemma disjoint : forall g t u c, J g -> In c (held (thr g t)) -> In c (held (thr g u)) -> t = u.
Proof. intros g t u c Hj A B; apply (j_own Hj) in A, B; congruence. Qed.

Lemma SI_step : forall p s0 g g' L s, J g -> SI p s0 g L s -> step g g' -> exists L' s', SI p s0 g' L' s'.
Proof.
  intros p s0 g g' L s Hj I S; destruct S as [g t m N F|g t m N F|g t x r s' N NL NU E].
  - (* lock *)
    exists L, s. destruct (next_some _ N) as (o & os & T & X).
    destruct (g_lock (good_code _ _ X) eq_refl) as (_ & UC & Idle).
    rewrite (advance_on _ _ T X eq_refl).
    assert (HN : forall u, ~ In m (held (thr g u))) by (intros u Q; apply (j_own Hj) in Q; congruence).
    assert (CN : committed (mkT (o :: os) (Datatypes.S (pc (thr g t))) (reg (thr g t))) = false).
    { unfold committed; cbn [todo pc]; rewrite (firstn_snoc _ _ X), unlocking_snoc, UC; reflexivity. }
    assert (CO : committed (thr g t) = false) by (unfold committed; now rewrite T).
    constructor; cbn [thr ch].
    + intros u; rewrite <- (si_log I u); f_equal; destruct (Nat.eq_dec u t) as [->|U]; [|now rewrite put_ne].
      rewrite put_eq; unfold remains; now rewrite CN, CO, T.
    + exact (si_run I).
    + intros u; destruct (Nat.eq_dec u t) as [->|U]; [|rewrite put_ne by auto; apply (si_part I)].
      rewrite put_eq; cbn [todo pc reg]; intros o' os' Q _; injection Q as <- <-.
      destruct (si_part I _ T CO) as (s1 & R1 & A1).
      rewrite (firstn_snoc _ _ X), exec_all_app, R1; cbn [exec_all Threads.exec]. exists s1; split; auto.
      rewrite (exec_all_idle _ _ _ Idle) in R1; inversion R1; subst s1.
      unfold held; cbn [todo pc]; rewrite (firstn_snoc _ _ X), holds_snoc; intros c [<-|C].
      * apply (si_free I); intros u Q; now destruct (HN u).
      * apply A1; unfold held; now rewrite T.
    + intros c K; apply (si_free I); intros u Q; destruct (Nat.eq_dec u t) as [->|U].
      * specialize (K t); rewrite put_eq, CN in K. discriminate K. unfold held in *; cbn [todo pc]; rewrite T in Q.
        rewrite (firstn_snoc _ _ X), holds_snoc; now right.
      * specialize (K u); rewrite put_ne in K by auto; auto.
  - (* unlock *)
    destruct (next_some _ N) as (o & os & T & X).
    set (th := advance (thr g t) (reg (thr g t))).
    assert (HA : held th = remove Nat.eq_dec m (held (thr g t))) by (apply (held_advance _ _ N)).
    assert (RM : remains th = os /\ forall o' os', todo th = o' :: os' -> committed th = false -> th = mkT os 0 r0).
    { unfold th, advance; rewrite T; destruct (Nat.eqb_spec (Datatypes.S (pc (thr g t))) (length (code o))) as [Q|Q].
      - split; [unfold remains, committed; simpl; destruct os; reflexivity|auto].
      - unfold remains, committed; cbn [todo pc]; rewrite (firstn_snoc _ _ X), unlocking_snoc; simpl; rewrite orb_true_r; split; auto; discriminate. }
    destruct RM as [RM RP].
    assert (HC : forall c, In c (held th) -> committed th = true).
    { intros c; unfold th, advance; rewrite T; destruct (Nat.eqb_spec (Datatypes.S (pc (thr g t))) (length (code o))) as [Q|Q].
      - unfold held; simpl; destruct os; simpl; tauto.
      - intros _; unfold committed; cbn [todo pc]; rewrite (firstn_snoc _ _ X), unlocking_snoc; simpl; apply orb_true_r. }
    destruct (committed (thr g t)) eqn:CO.
    + (* has been committed *)
      exists L, s; constructor; cbn [thr ch]; fold th.
      * intros u; rewrite <- (si_log I u); f_equal; destruct (Nat.eq_dec u t) as [->|U]; [|now rewrite put_ne].
        rewrite put_eq, RM; unfold remains; now rewrite CO, T.
      * exact (si_run I).
      * intros u; destruct (Nat.eq_dec u t) as [->|U]; [|rewrite put_ne by auto; apply (si_part I)].
        rewrite put_eq; intros o' os' Q C; exists s; pose proof (RP _ _ Q C) as Z; rewrite Z; simpl; split; auto.
        intros c K; unfold held in K; simpl in K; destruct os; destruct K.
      * intros c K; apply (si_free I); intros u Q; destruct (Nat.eq_dec u t) as [->|U]; auto.
        specialize (K u); rewrite put_ne in K by auto; auto.
    + (* commits *)
      destruct (si_part I _ T CO) as (s1 & R1 & A1).
      assert (EF : effect o s = Some s1).
      { pose proof (exec_all_code o s) as Z. rewrite <- (firstn_skipn (pc (thr g t)) (code o)), exec_all_app, R1 in Z.
        rewrite exec_all_idle in Z.
        - destruct (effect o s); [destruct Z as [r Z]; inversion Z; auto|discriminate].
        - intros y Y; pose proof (unlock_last _ _ X _ Y) as IU; destruct y; try discriminate; reflexivity. }
      assert (FR : forall c, ~ In c (held (thr g t)) -> s1 c = s c).
      { intros c C; eapply exec_all_frame; eauto; intros y Y TY; apply C; eapply touched_held; eauto; apply (j_within Hj). }
      exists (L ++ [(t, o)]), s1; constructor; cbn [thr ch]; fold th.
      * intros u; rewrite <- (si_log I u), of_thread_snoc; destruct (Nat.eqb_spec t u) as [->|U].
        -- rewrite put_eq, RM, <- app_assoc; unfold remains; rewrite CO, T; reflexivity.
        -- rewrite put_ne by auto; reflexivity.
      * rewrite serial_app, (si_run I); simpl; now rewrite EF.
      * intros u; destruct (Nat.eq_dec u t) as [->|U].
        -- rewrite put_eq; intros o' os' Q C; exists s1; pose proof (RP _ _ Q C) as Z; rewrite Z; simpl; split; auto.
           intros c K; unfold held in K; simpl in K; destruct os; destruct K.
        -- rewrite put_ne by auto; intros o' os' Q C; destruct (si_part I _ Q C) as (s2 & R2 & A2).
           assert (AG : agree (held (thr g u)) s s1).
           { intros c K; symmetry; apply FR; intros K'; apply U; eapply disjoint; eauto. }
           pose proof (@exec_all_agree (firstn (pc (thr g u)) (code o')) r0 s s1 (held (thr g u))
             (fun y c Y TY => touched_held _ _ (j_within Hj u) Q C Y TY) AG) as Z.
           rewrite R2 in Z. destruct (exec_all (firstn (pc (thr g u)) (code o')) r0 s1) as [[r3 s3]|]; [|contradiction].
           destruct Z as [<- Z]; exists s3; split; auto. intros c K; rewrite (A2 c K); auto.
      * intros c K; destruct (in_dec Nat.eq_dec c (held (thr g t))) as [Q|Q]; [auto|].
        rewrite (FR c Q); apply (si_free I); intros u V; destruct (Nat.eq_dec u t) as [->|U]; [tauto|].
        specialize (K u); rewrite put_ne in K by auto; auto.
  - (* access *)
    exists L, s. destruct (next_some _ N) as (o & os & T & X).
    assert (IU : is_unlock x = false) by (destruct x; auto; now destruct (NU m)).
    destruct (touches x) as [d|] eqn:TX; [|destruct x; try discriminate; now destruct (NL m)].
    destruct (g_touch (good_code _ _ X) TX) as (HD & UC).
    assert (HD' : In d (held (thr g t))) by (unfold held; now rewrite T).
    rewrite (advance_on _ _ T X IU).
    assert (CN : committed (mkT (o :: os) (Datatypes.S (pc (thr g t))) r) = false).
    { unfold committed; cbn [todo pc]; rewrite (firstn_snoc _ _ X), unlocking_snoc, UC, IU; reflexivity. }
    assert (CO : committed (thr g t) = false) by (unfold committed; now rewrite T).
    assert (HH : held (mkT (o :: os) (Datatypes.S (pc (thr g t))) r) = held (thr g t)).
    { unfold held; cbn [todo pc]; rewrite T, (firstn_snoc _ _ X), holds_snoc. destruct x; auto; discriminate. }
    assert (FR : forall c, c <> d -> s' c = ch g c) by (intros c C; eapply exec_frame; eauto; congruence).
    constructor; cbn [thr ch].
    + intros u; rewrite <- (si_log I u); f_equal; destruct (Nat.eq_dec u t) as [->|U]; [|now rewrite put_ne].
      rewrite put_eq; unfold remains; now rewrite CN, CO, T.
    + exact (si_run I).
    + intros u; destruct (Nat.eq_dec u t) as [->|U].
      * rewrite put_eq, HH; cbn [todo pc reg]; intros o' os' Q _; injection Q as <- <-.
        destruct (si_part I _ T CO) as (s1 & R1 & A1).
        rewrite (firstn_snoc _ _ X), exec_all_app, R1; cbn [exec_all].
        assert (TH : forall c, touches x = Some c -> In c (held (thr g t))) by (intros c C; congruence).
        pose proof (exec_agree x (reg (thr g t)) TH A1) as Z; rewrite E in Z.
        destruct (exec x (reg (thr g t)) s1) as [[r3 s3]|]; [|contradiction].
        destruct Z as [<- Z]; eauto.
      * rewrite put_ne by auto; intros o' os' Q C; destruct (si_part I _ Q C) as (s2 & R2 & A2); exists s2; split; auto.
        intros c K; rewrite FR; auto. intros ->; apply U; eapply disjoint; eauto.
    + intros c K. assert (CD : c <> d).
      { intros ->; specialize (K t); rewrite put_eq, CN, HH in K; specialize (K HD'); discriminate. }
      rewrite FR by auto; apply (si_free I); intros u Q; specialize (K u); destruct (Nat.eq_dec u t) as [->|U].
      * rewrite put_eq, HH, CN in K; specialize (K Q); discriminate.
      * rewrite put_ne in K by auto; auto.
Qed.
Lemma SI_reach : forall p s g, reach (start p s) g -> exists L s', SI p s g L s'.
Proof.
  intros p s g R; induction R as [|g g' R (L & s' & I) S]; [eauto using SI_start|].
  eapply SI_step; eauto. eapply J_reach; eauto.
Qed.

(** the result of threads which are done *)
Lemma serializable : forall p s g, reach (start p s) g -> done g ->
  exists L, (forall t, of_thread t L = p t) /\ exists s', serial L s = Some s' /\ forall c, ch g c = s' c.
Proof.
  intros p s g R D; destruct (SI_reach R) as (L & s' & I); exists L; split.
  - intros t; rewrite <- (si_log I t); unfold remains, committed; rewrite (D t); now rewrite app_nil_r.
  - exists s'; split; [exact (si_run I)|]. intros c; apply (si_free I); intros t; unfold held; rewrite (D t); intros [].
Qed.
(** something undefined is undefined when operations are done one after another as well *)
Lemma wrong_serial : forall p s g t, reach (start p s) g -> wrong same g t ->
  exists L o, (forall u, exists l, of_thread u (L ++ [(t, o)]) ++ l = p u) /\ (exists s', serial L s = Some s' /\ effect o s' = None).
Proof.
  intros p s g t R (x & N & W); pose proof (J_reach R) as Hj; destruct (SI_reach R) as (L & s' & I).
  destruct (next_some _ N) as (o & os & T & X).
  assert (E : exec x (reg (thr g t)) (ch g) = None).
  { destruct W as [(m & -> & O)|E]; auto. destruct O; apply (j_own Hj); now apply unlock_held. }
  destruct x as [| | | |i d| | |] eqn:XX; try discriminate. rewrite <- XX in *.
  assert (TX : touches x = Some d) by now subst.
  destruct (g_touch (good_code _ _ X) TX) as (HD & UC).
  assert (CO : committed (thr g t) = false) by (unfold committed; now rewrite T).
  exists L, o; split.
  - intros u; rewrite of_thread_snoc; destruct (Nat.eqb_spec t u) as [->|U].
    + exists os; rewrite <- app_assoc, <- (si_log I u); unfold remains; now rewrite CO, T.
    + exists (remains (thr g u)); exact (si_log I u).
  - exists s'; split; [exact (si_run I)|].
    destruct (si_part I _ T CO) as (s1 & R1 & A1).
    assert (TH : forall c, touches x = Some c -> In c (held (thr g t))) by (intros c C; unfold held; rewrite T; congruence).
    pose proof (exec_agree x (reg (thr g t)) TH A1) as Z; rewrite E in Z.
    destruct (exec x (reg (thr g t)) s1) as [[r3 s3]|] eqn:E1; [contradiction|].
    pose proof (exec_all_code o s') as K.
    rewrite <- (firstn_skipn (Datatypes.S (pc (thr g t))) (code o)), exec_all_app, (firstn_snoc _ _ X), exec_all_app, R1 in K.
    cbn [exec_all] in K; rewrite E1 in K. destruct (effect o s'); auto; destruct K; discriminate.
Qed.
End Same.
