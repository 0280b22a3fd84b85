(** Pointer-level lemmas for sequenced indices: rings of doubly linked nodes. *)
From Verif Require Import Prelude SeqModel.

Definition R (s : sst) (a b : node) : Prop := nx s a = Some b /\ pr s b = Some a.

Definition alloc (s : sst) (x : node) : Prop :=
  (exists v, nx s x = Some v) /\ (exists v, pr s x = Some v).

Definition ring (s : sst) (r : list node) : Prop :=
  match r with
  | [] => False
  | h :: _ => adj (R s) (r ++ [h])
  end.

(** rings [rs] and loose allocated nodes [ls], all distinct *)
Definition wf (s : sst) (rs : list (list node)) (ls : list node) : Prop :=
  Forall (ring s) rs /\ NoDup (concat rs ++ ls) /\ Forall (alloc s) ls.

Definition wfc s rs seg ls := wf s rs (seg ++ ls) /\ adj (R s) seg.

(** ** Basic facts *)
Lemma R_next s a b b' : R s a b -> R s a b' -> b = b'.
Proof. intros [H _] [H' _]. congruence. Qed.
Lemma R_prev s a a' b : R s a b -> R s a' b -> a = a'.
Proof. intros [_ H] [_ H']. congruence. Qed.

Lemma ring_rot s a l1 b l2 : ring s (a :: l1 ++ b :: l2) <-> ring s (b :: l2 ++ a :: l1).
Proof.
  cbn [ring].
  rewrite <- !app_comm_cons, <- !app_assoc, <- !app_comm_cons.
  rewrite (app_comm_cons l1 (b :: l2 ++ [a]) a), (app_comm_cons l2 (a :: l1 ++ [b]) b).
  rewrite (adj_app (R s) (a :: l1) b (l2 ++ [a])), (adj_app (R s) (b :: l2) a (l1 ++ [b])).
  cbn [app]. tauto.
Qed.

Lemma ring_rot' s l1 l2 : ring s (l1 ++ l2) -> ring s (l2 ++ l1).
Proof.
  destruct l1 as [|a l1]; [now rewrite app_nil_r|].
  destruct l2 as [|b l2]; [now rewrite app_nil_r|].
  cbn [app]. now rewrite ring_rot.
Qed.

Lemma ring_in s r x : ring s r -> In x r ->
  (exists p, In p r /\ R s p x) /\ (exists n, In n r /\ R s x n).
Proof.
  intros H Hx. apply in_split in Hx. destruct Hx as (l1 & l2 & ->).
  assert (H' : ring s (x :: l2 ++ l1)) by (apply (ring_rot' _ l1 (x :: l2)); auto).
  assert (I : forall n, In n (x :: l2 ++ l1) -> In n (l1 ++ x :: l2)).
  { intros n. cbn. rewrite !in_app_iff. cbn. tauto. }
  remember (l2 ++ l1) as l. clear Heql H.
  cbn [ring app] in H'. split.
  - destruct (exists_last (l := x :: l)) as (m & p & E); [easy|].
    exists p. split; [apply I; rewrite E, in_app_iff; cbn; auto|].
    rewrite app_comm_cons, E, <- app_assoc in H'. cbn in H'. apply adj_app in H'.
    destruct H' as [_ H']. cbn in H'. tauto.
  - destruct l as [|n l].
    + exists x. split; [apply I; cbn; auto|]. cbn in H'. tauto.
    + exists n. split; [apply I; cbn; auto|]. cbn in H'. tauto.
Qed.

Lemma ring_alloc s r x : ring s r -> In x r -> alloc s x.
Proof.
  intros H Hx. destruct (ring_in _ _ _ H Hx) as [(p & _ & _ & Hp) (n & _ & Hn & _)].
  split; eauto.
Qed.

Lemma adj_frame s s' l :
  adj (R s) l ->
  (forall a, In a l -> nx s' a = nx s a /\ pr s' a = pr s a) -> adj (R s') l.
Proof.
  intros H F. eapply adj_mono; [exact H|].
  intros l1 a b l2 -> [H1 H2].
  destruct (F a) as [Fa _]; [rewrite in_app_iff; cbn; auto|].
  destruct (F b) as [_ Fb]; [rewrite in_app_iff; cbn; auto|].
  split; congruence.
Qed.

Lemma ring_frame s s' r :
  ring s r ->
  (forall a, In a r -> nx s' a = nx s a /\ pr s' a = pr s a) -> ring s' r.
Proof.
  destruct r as [|h r]; [easy|]. cbn [ring]. intros H F.
  eapply adj_frame; [exact H|]. intros a Ha. apply F.
  rewrite in_app_iff in Ha. cbn in *. tauto.
Qed.

Lemma wf_perm s rs rs' ls : wf s rs ls -> Permutation rs rs' -> wf s rs' ls.
Proof.
  intros (H1 & H2 & H3) P. repeat split; auto.
  - eapply Permutation_Forall; eauto.
  - eapply NoDup_perm; [|exact H2]. apply Permutation_app_tail.
    clear -P. induction P; cbn; eauto using Permutation_trans.
    + now apply Permutation_app_head.
    + rewrite !app_assoc. apply Permutation_app_tail, Permutation_app_comm.
Qed.

Lemma wf_rot s l1 l2 rs ls : wf s ((l1 ++ l2) :: rs) ls -> wf s ((l2 ++ l1) :: rs) ls.
Proof.
  intros (H1 & H2 & H3). repeat split; auto.
  - inversion_clear H1. constructor; auto. now apply ring_rot'.
  - eapply NoDup_perm; [|exact H2]. apply Permutation_app_tail. cbn.
    apply Permutation_app_tail, Permutation_app_comm.
Qed.

Lemma wf_loose_perm s rs ls ls' : wf s rs ls -> Permutation ls ls' -> wf s rs ls'.
Proof.
  intros (H1 & H2 & H3) P. repeat split; auto.
  - eapply NoDup_perm; [|exact H2]. now apply Permutation_app_head.
  - eapply Permutation_Forall; eauto.
Qed.

Lemma wf_loose_drop s rs l1 l2 : wf s rs (l1 ++ l2) -> wf s rs l2.
Proof.
  intros (H1 & H2 & H3). repeat split; auto.
  - rewrite NoDup_app_iff in *. destruct H2 as (A & B & C).
    rewrite NoDup_app_iff in B. repeat split; try tauto.
    intros x Hx. specialize (C x Hx). rewrite in_app_iff in C. tauto.
  - rewrite Forall_app in H3. tauto.
Qed.

Lemma wf_alloc s rs ls x : wf s rs ls -> In x (concat rs ++ ls) -> alloc s x.
Proof.
  intros (H1 & H2 & H3) Hx. rewrite in_app_iff in Hx. destruct Hx as [Hx|Hx].
  - apply in_concat in Hx. destruct Hx as (r & Hr & Hx).
    rewrite Forall_forall in H1. eapply ring_alloc; eauto.
  - rewrite Forall_forall in H3. auto.
Qed.

Lemma wf_ext s s' rs ls : wf s rs ls ->
  (forall a, nx s' a = nx s a) -> (forall a, pr s' a = pr s a) -> wf s' rs ls.
Proof.
  intros (H1 & H2 & H3) N P. repeat split; auto.
  - eapply Forall_impl; [|exact H1]. intros r Hr. eapply ring_frame; eauto.
  - eapply Forall_impl; [|exact H3]. intros r [A B]. unfold alloc. now rewrite N, P.
Qed.

(** ** Detaching a segment from the ring it belongs to *)
Lemma wf_detach s s' x seg y l rs ls p :
  wf s ((x :: seg ++ y :: l) :: rs) ls ->
  pr s x = Some p ->
  (forall a, nx s' a = upd (nx s) p (Some y) a) ->
  (forall a, pr s' a = upd (pr s) y (Some p) a) ->
  wfc s' ((y :: l) :: rs) (x :: seg) ls /\ In p (y :: l).
Proof.
  intros (H1 & H2 & H3) Hp N P.
  inversion H1 as [|? ? Hr Hrs]; subst.
  destruct (exists_last (l := x :: seg)) as (s0 & z & Ez); [easy|].
  destruct (exists_last (l := y :: l)) as (t0 & q & Eq); [easy|].
  assert (A : adj (R s) (s0 ++ z :: y :: l ++ [x])).
  { cbn [ring] in Hr. rewrite <- app_comm_cons, <- app_assoc, app_comm_cons, Ez, <- app_assoc in Hr.
    exact Hr. }
  assert (B : adj (R s) ((x :: seg) ++ t0 ++ q :: [x])).
  { cbn [ring] in Hr. rewrite <- app_comm_cons, <- app_assoc, app_comm_cons, Eq, <- app_assoc in Hr.
    exact Hr. }
  assert (Rqx : R s q x).
  { rewrite app_assoc in B. apply adj_app in B. cbn in B. tauto. }
  assert (Rzy : R s z y).
  { apply adj_app in A. cbn in A. tauto. }
  assert (q = p) by (destruct Rqx; congruence). subst q.
  assert (Cseg : adj (R s) (x :: seg)).
  { rewrite Ez. apply adj_app in A. tauto. }
  assert (Ctl : adj (R s) (y :: l)).
  { apply adj_app in A. destruct A as [_ A]. apply adj_cons2 in A. destruct A as [_ A].
    rewrite app_comm_cons, Eq, <- app_assoc in A. rewrite Eq.
    cbn [app] in A. apply adj_app in A. tauto. }
  cbn [concat] in H2. rewrite <- app_comm_cons, <- !app_assoc, !app_comm_cons in H2.
  rewrite <- !app_assoc in H2.
  assert (Ip : In p (y :: l)) by (rewrite Eq, in_app_iff; cbn; auto).
  assert (Iz : In z (x :: seg)) by (rewrite Ez, in_app_iff; cbn; auto).
  assert (D : forall a, In a (x :: seg) -> ~ In a (y :: l) /\ ~ In a (concat rs) /\ ~ In a ls).
  { intros a Ha. apply NoDup_app_iff in H2. destruct H2 as (_ & _ & C). specialize (C a Ha).
    rewrite !in_app_iff in C. tauto. }
  assert (D2 : forall a, In a (y :: l) -> ~ In a (concat rs) /\ ~ In a ls).
  { intros a Ha. apply NoDup_app_iff in H2. destruct H2 as (_ & C & _).
    apply NoDup_app_iff in C. destruct C as (_ & _ & C). specialize (C a Ha).
    rewrite !in_app_iff in C. tauto. }
  assert (F : forall a, a <> p -> a <> y -> nx s' a = nx s a /\ pr s' a = pr s a).
  { intros a Ha Hb. rewrite N, P, !upd_neq; auto. }
  repeat split; auto.
  - constructor.
    + cbn [ring]. rewrite Eq, <- app_assoc. cbn [app]. apply adj_app. split.
      * rewrite <- Eq. eapply adj_mono; [exact Ctl|].
        intros l1 a b l2 E Rab. destruct Rab as [Ra Rb].
        assert (Ia : In a (y :: l)) by (rewrite E, in_app_iff; cbn; auto).
        assert (Ib : In b (y :: l)) by (rewrite E, in_app_iff; cbn; auto).
        split.
        -- rewrite N. unfold upd. destruct (Nat.eqb_spec a p) as [->|]; auto.
           exfalso. assert (b = x) by (destruct Rqx; congruence). subst b.
           destruct (D x) as [C _]; [cbn; auto|]. auto.
        -- rewrite P. unfold upd. destruct (Nat.eqb_spec b y) as [->|]; auto.
           exfalso. assert (a = z) by (destruct Rzy; congruence). subst a.
           destruct (D z) as [C _]; auto.
      * cbn. split; auto. split; [rewrite N, upd_eq|rewrite P, upd_eq]; auto.
    + rewrite Forall_forall in *. intros r Ir. eapply ring_frame; [apply Hrs; auto|].
      intros a Ia. assert (In a (concat rs)) by (apply in_concat; eauto).
      apply F; intros ->; [destruct (D2 p Ip)|destruct (D2 y); [cbn; auto|]]; tauto.
  - cbn [concat]. eapply NoDup_perm; [|exact H2].
    rewrite <- !app_assoc.
    rewrite (Permutation_app_comm (x :: seg)). rewrite <- !app_assoc.
    apply Permutation_app_head, Permutation_app_head, Permutation_app_comm.
  - apply Forall_app. split.
    + rewrite Forall_forall. intros a Ia. destruct (D a Ia) as [C _].
      destruct (F a) as [F1 F2]; [intros ->; auto|cbn in C; intros ->; tauto|].
      unfold alloc. rewrite F1, F2. eapply ring_alloc; [exact Hr|].
      cbn in Ia |- *. rewrite in_app_iff. tauto.
    + rewrite Forall_forall in *. intros a Ia.
      destruct (F a) as [F1 F2]; [intros ->; destruct (D2 p Ip); tauto|intros ->; destruct (D2 y); [cbn; auto|]; tauto|].
      unfold alloc. rewrite F1, F2. apply H3; auto.
  - eapply adj_frame; [exact Cseg|]. intros a Ia. destruct (D a Ia) as [C _].
    apply F; intros ->; cbn in *; tauto.
Qed.

Lemma nodup_not_first {A} (x a b : A) m l1 l2 :
  NoDup (l1 ++ a :: b :: l2) -> x :: m = l1 ++ a :: b :: l2 -> b <> x.
Proof.
  intros N E ->. destruct l1 as [|c l1]; cbn in E, N; injection E; intros; subst.
  - inversion_clear N. cbn in *; tauto.
  - inversion_clear N. rewrite in_app_iff in *. cbn in *. tauto.
Qed.

Lemma nodup_not_last {A} (z a b : A) m l1 l2 :
  NoDup (l1 ++ a :: b :: l2) -> m ++ [z] = l1 ++ a :: b :: l2 -> a <> z.
Proof.
  intros N E ->. destruct (exists_last (l := b :: l2)) as (l3 & c & G); [easy|].
  rewrite G in *. rewrite app_comm_cons, app_assoc in E. apply app_inj_tail in E.
  destruct E as [_ <-]. rewrite app_comm_cons, app_assoc in N.
  apply NoDup_remove_2 in N. rewrite app_nil_r in N. apply N.
  rewrite in_app_iff. cbn. auto.
Qed.

(** ** Attaching a chain before [pos] *)
Lemma wf_attach s s' x seg z pos l rs ls pp s0 :
  wfc s ((pos :: l) :: rs) (x :: seg) ls ->
  x :: seg = s0 ++ [z] ->
  pr s pos = Some pp ->
  (forall a, nx s' a = upd (upd (nx s) z (Some pos)) pp (Some x) a) ->
  (forall a, pr s' a = upd (upd (pr s) x (Some pp)) pos (Some z) a) ->
  wf s' ((x :: seg ++ pos :: l) :: rs) ls /\ In pp (pos :: l).
Proof.
  intros ((H1 & H2 & H3) & Hc) Ez Hpp N P.
  inversion H1 as [|? ? Hr Hrs]; subst.
  destruct (exists_last (l := pos :: l)) as (t0 & q & Eq); [easy|].
  assert (B : adj (R s) (t0 ++ q :: [pos])).
  { cbn [ring] in Hr. rewrite Eq, <- app_assoc in Hr. exact Hr. }
  assert (Rq : R s q pos) by (apply adj_app in B; cbn in B; tauto).
  assert (q = pp) by (destruct Rq; congruence). subst q.
  assert (Ctl : adj (R s) (pos :: l)) by (rewrite Eq; apply adj_app in B; tauto).
  cbn [concat] in H2.
  assert (Ip : In pp (pos :: l)) by (rewrite Eq, in_app_iff; cbn; auto).
  assert (Iz : In z (x :: seg)) by (rewrite Ez, in_app_iff; cbn; auto).
  assert (Ix : In x (x :: seg)) by (cbn; auto).
  assert (Ipos : In pos (pos :: l)) by (cbn; auto).
  assert (H2' : NoDup ((x :: seg) ++ (pos :: l) ++ concat rs ++ ls)).
  { eapply NoDup_perm; [|exact H2]. rewrite <- !app_assoc.
    rewrite (Permutation_app_comm (x :: seg) ((pos :: l) ++ _)). rewrite <- !app_assoc.
    apply Permutation_app_head, Permutation_app_head, Permutation_app_comm. }
  assert (D : forall a, In a (x :: seg) -> ~ In a (pos :: l) /\ ~ In a (concat rs) /\ ~ In a ls).
  { intros a Ha. apply NoDup_app_iff in H2'. destruct H2' as (_ & _ & C). specialize (C a Ha).
    rewrite !in_app_iff in C. tauto. }
  assert (D2 : forall a, In a (pos :: l) -> ~ In a (concat rs) /\ ~ In a ls).
  { intros a Ha. apply NoDup_app_iff in H2'. destruct H2' as (_ & C & _).
    apply NoDup_app_iff in C. destruct C as (_ & _ & C). specialize (C a Ha).
    rewrite !in_app_iff in C. tauto. }
  assert (NDseg : NoDup (x :: seg)) by (apply NoDup_app_iff in H2'; tauto).
  assert (F : forall a, ~ In a (x :: seg) -> ~ In a (pos :: l) -> nx s' a = nx s a /\ pr s' a = pr s a).
  { intros a Ha Hb. rewrite N, P, !upd_neq; auto; intros ->; tauto. }
  repeat split; auto.
  - constructor.
    + (* x::seg ++ pos::l ++ [x] *)
      cbn [ring]. rewrite <- app_comm_cons, <- app_assoc.
      change (adj (R s') ((x :: seg) ++ pos :: l ++ [x])).
      rewrite Ez, <- app_assoc. cbn [app]. apply adj_app. split.
      * rewrite <- Ez. eapply adj_mono; [exact Hc|].
        intros l1 a b l2 E [Ra Rb].
        assert (Ia : In a (x :: seg)) by (rewrite E, in_app_iff; cbn; auto).
        assert (Ib : In b (x :: seg)) by (rewrite E, in_app_iff; cbn; auto).
        split.
        -- rewrite N. unfold upd. destruct (Nat.eqb_spec a pp) as [->|].
           { exfalso; destruct (D pp); [cbn; auto|]; tauto. }
           destruct (Nat.eqb_spec a z) as [->|]; auto.
           exfalso. rewrite Ez in E. eapply nodup_not_last; [|exact E|reflexivity].
           now rewrite <- E, <- Ez.
        -- rewrite P. unfold upd. destruct (Nat.eqb_spec b pos) as [->|].
           { exfalso; destruct (D pos); [cbn; auto|]; tauto. }
           destruct (Nat.eqb_spec b x) as [->|]; auto.
           exfalso. eapply nodup_not_first; [|exact E|reflexivity]. now rewrite <- E.
      * apply adj_cons2. split.
        { split; [rewrite N|rewrite P]; unfold upd.
          - destruct (Nat.eqb_spec z pp) as [->|]; [exfalso; destruct (D pp); [cbn; auto|]; tauto|].
            now rewrite Nat.eqb_refl.
          - now rewrite Nat.eqb_refl. }
        rewrite app_comm_cons, Eq, <- app_assoc. cbn [app]. apply adj_app. split.
        { rewrite <- Eq. eapply adj_mono; [exact Ctl|].
          intros l1 a b l2 E [Ra Rb].
          assert (Ia : In a (pos :: l)) by (rewrite E, in_app_iff; cbn; auto).
          assert (Ib : In b (pos :: l)) by (rewrite E, in_app_iff; cbn; auto).
          assert (NDp : NoDup (pos :: l)).
          { apply NoDup_app_iff in H2'. destruct H2' as (_ & C & _).
            apply NoDup_app_iff in C. tauto. }
          assert (b <> pos).
          { intros ->. eapply nodup_not_first; [|exact E|reflexivity]. now rewrite <- E. }
          split.
          - rewrite N. unfold upd. destruct (Nat.eqb_spec a pp) as [->|].
            { exfalso. destruct Rq. congruence. }
            destruct (Nat.eqb_spec a z) as [->|]; auto. exfalso; destruct (D z); [cbn; auto|]; tauto.
          - rewrite P. unfold upd. destruct (Nat.eqb_spec b pos) as [->|]; [tauto|].
            destruct (Nat.eqb_spec b x) as [->|]; auto. exfalso; destruct (D x); [cbn; auto|]; tauto. }
        { cbn. split; auto. split; [rewrite N|rewrite P]; unfold upd.
          - now rewrite Nat.eqb_refl.
          - destruct (Nat.eqb_spec x pos) as [->|]; [exfalso; destruct (D pos); [cbn; auto|]; tauto|].
            now rewrite Nat.eqb_refl. }
    + rewrite Forall_forall in *. intros r Ir. eapply ring_frame; [apply Hrs; auto|].
      intros a Ia. assert (In a (concat rs)) by (apply in_concat; eauto).
      apply F; intros C; [destruct (D a C)|destruct (D2 a C)]; tauto.
  - cbn [concat]. eapply NoDup_perm; [|exact H2']. cbn. rewrite <- !app_assoc. reflexivity.
  - apply Forall_app in H3. destruct H3 as [_ H3]. rewrite Forall_forall in *. intros a Ia.
    destruct (F a) as [F1 F2]; [intros C; destruct (D a C); tauto|intros C; destruct (D2 a C); tauto|].
    unfold alloc. rewrite F1, F2. apply H3; auto.
Qed.

(** ** The pointer operations *)
Definition fr (s s' : sst) : Prop := tk s' = tk s /\ fil s' = fil s.

Lemma fr_refl s : fr s s. Proof. split; auto. Qed.
Lemma fr_trans s1 s2 s3 : fr s1 s2 -> fr s2 s3 -> fr s1 s3.
Proof. unfold fr. intros [] []. split; congruence. Qed.
#[export] Hint Resolve fr_refl : core.

(** symbolic execution of reads and writes whose cells are known *)
Ltac look H := unfold bind, get_next, get_prior, set_next, set_prior, increment, decrement;
               cbn [nx pr tk fil]; rewrite ?H; cbn [nx pr tk fil].

Ltac ups := repeat first [rewrite upd_eq | rewrite upd_neq by congruence].
Ltac run :=
  unfold bind, get_next, get_prior, set_next, set_prior, increment, decrement;
  repeat first [progress (cbn [nx pr tk fil]) | rewrite upd_eq | rewrite upd_neq by congruence
               | match goal with
                 | H : nx ?s ?x = Some _ |- context [match nx ?s ?x with _ => _ end] => rewrite H
                 | H : pr ?s ?x = Some _ |- context [match pr ?s ?x with _ => _ end] => rewrite H
                 end].

Lemma ring_head2 s x y l : ring s (x :: y :: l) -> nx s x = Some y /\ pr s y = Some x.
Proof. cbn. unfold R. tauto. Qed.

Lemma unlink_spec s x y l rs ls :
  wf s ((x :: y :: l) :: rs) ls ->
  exists s', unlink x s = Ret tt s' /\ wf s' ((y :: l) :: rs) (x :: ls) /\ fr s s'.
Proof.
  intros W. pose proof W as (H1 & H2 & H3). inversion H1 as [|? ? Hr Hrs]; subst.
  destruct (ring_head2 _ _ _ _ Hr) as [Nx Py].
  destruct (wf_alloc _ _ _ x W) as [_ [p Px]]; [cbn; auto|].
  set (s1 := mkS (upd (nx s) p (Some y)) (upd (pr s) y (Some p)) (tk s) (fil s)).
  destruct (wf_detach s s1 x [] y l rs ls p) as [[D1 D2] Ip]; auto.
  assert (xp : x <> p).
  { intros ->. cbn [concat app] in H2. inversion_clear H2. cbn in *. rewrite !in_app_iff in *. tauto. }
  destruct (wf_alloc _ _ _ p W) as [[pn Np] _].
  { cbn in Ip |- *. rewrite !in_app_iff. tauto. }
  exists s1. split; [|split; auto; split; auto].
  unfold unlink. run. reflexivity.
Qed.

(** linking a loose node before [pos]: common tail of link and relink *)
Definition link_before (pos x : node) : SM unit :=
  pp <- get_prior pos ;;
  set_prior x pp ;;;
  set_next x pos ;;;
  n <- get_next x ;;
  set_prior n x ;;;
  p <- get_prior x ;;
  set_next p x.

Lemma link_before_spec s pos x l rs ls :
  wf s ((pos :: l) :: rs) (x :: ls) ->
  exists s', link_before pos x s = Ret tt s' /\ wf s' ((x :: pos :: l) :: rs) ls /\ fr s s'.
Proof.
  intros W. pose proof W as (H1 & H2 & H3). inversion H1 as [|? ? Hr Hrs]; subst.
  destruct (wf_alloc _ _ _ pos W) as [[posn Npos] [pp Ppos]]; [cbn; auto|].
  destruct (wf_alloc _ _ _ x W) as [[xn Nx] [xp Px]]; [rewrite in_app_iff; cbn; auto|].
  set (s1 := mkS (upd (upd (nx s) x (Some pos)) pp (Some x))
                 (upd (upd (pr s) x (Some pp)) pos (Some x)) (tk s) (fil s)).
  destruct (wf_attach s s1 x [] x pos l rs ls pp []) as [D1 Ip]; auto.
  { split; [exact W|cbn; auto]. }
  destruct (wf_alloc _ _ _ pp W) as [[ppn Npp] _].
  { rewrite in_app_iff. left. cbn [concat]. rewrite in_app_iff. auto. }
  assert (ND : ~ In x (pos :: l)).
  { cbn [concat] in H2. apply NoDup_remove_2 in H2. rewrite !in_app_iff in H2. tauto. }
  assert (x <> pos) by (intros ->; apply ND; cbn; auto).
  assert (pp <> x) by (intros ->; auto).
  exists s1. split; [|split; auto; split; auto].
  unfold link_before. run. reflexivity.
Qed.

Lemma link_spec s h x l rs ls :
  wf s ((h :: l) :: rs) (x :: ls) ->
  exists s', link x h s = Ret tt s' /\ wf s' ((h :: l ++ [x]) :: rs) ls /\ fr s s'.
Proof.
  intros W. destruct (link_before_spec _ _ _ _ _ _ W) as (s' & E & W' & F).
  exists s'. split; [exact E|]. split; auto.
  apply (wf_rot s' [x] (h :: l)). exact W'.
Qed.

(** relink when [x] and [pos] are in the same ring *)
Lemma relink_same s pos x l1 l2 rs ls :
  wf s ((x :: l1 ++ pos :: l2) :: rs) ls ->
  exists s', relink pos x s = Ret tt s' /\ wf s' ((l1 ++ x :: pos :: l2) :: rs) ls /\ fr s s'.
Proof.
  intros W.
  assert (G : exists y l, l1 ++ pos :: l2 = y :: l) by (destruct l1; cbn; eauto).
  destruct G as (y & l & G). rewrite G in W.
  destruct (unlink_spec _ _ _ _ _ _ W) as (s1 & E1 & W1 & F1).
  rewrite <- G in W1. apply wf_rot in W1. cbn [app] in W1.
  destruct (link_before_spec _ _ _ _ _ _ W1) as (s2 & E2 & W2 & F2).
  exists s2. split; [|split].
  - unfold relink. erewrite bind_ret by exact E1. exact E2.
  - apply (wf_rot s2 (x :: pos :: l2) l1). exact W2.
  - eapply fr_trans; eauto.
Qed.

(** relink when they are in different rings *)
Lemma relink_other s pos x y l1 l2 rs ls :
  wf s ((x :: y :: l1) :: (pos :: l2) :: rs) ls ->
  exists s', relink pos x s = Ret tt s' /\
             wf s' ((y :: l1) :: (x :: pos :: l2) :: rs) ls /\ fr s s'.
Proof.
  intros W. destruct (unlink_spec _ _ _ _ _ _ W) as (s1 & E1 & W1 & F1).
  assert (W1' : wf s1 ((pos :: l2) :: (y :: l1) :: rs) (x :: ls)).
  { eapply wf_perm; [exact W1|]. constructor. }
  destruct (link_before_spec _ _ _ _ _ _ W1') as (s2 & E2 & W2 & F2).
  exists s2. split; [|split].
  - unfold relink. erewrite bind_ret by exact E1. exact E2.
  - eapply wf_perm; [exact W2|]. constructor.
  - eapply fr_trans; eauto.
Qed.

(** relink of a range, in two parts *)
Lemma relink_range_parts pos x y s z p :
  x <> y ->
  pr s y = Some z -> pr s x = Some p -> x <> y ->
  (exists v, nx s p = Some v) ->
  relink_range pos x y s =
  (pp <- get_prior pos ;;
   set_prior x pp ;;;
   set_next z pos ;;;
   xp <- get_prior x ;;
   set_next xp x ;;;
   zn <- get_next z ;;
   set_prior zn z)
  (mkS (upd (nx s) p (Some y)) (upd (pr s) y (Some p)) (tk s) (fil s)).
Proof.
  intros D Hz Hp Hxy [v Hv]. unfold relink_range.
  destruct (Nat.eqb_spec x y); [easy|].
  unfold bind at 1 2. unfold get_prior at 1 2. rewrite Hz, Hp.
  unfold bind at 1. unfold set_next at 1. rewrite Hv.
  unfold bind at 1. unfold get_prior at 1. cbn [pr]. rewrite Hp.
  unfold bind at 1. unfold set_prior at 1. cbn [pr nx tk fil]. rewrite Hz.
  reflexivity.
Qed.

Lemma attach_code s pos x seg z s0 l rs ls :
  wfc s ((pos :: l) :: rs) (x :: seg) ls ->
  x :: seg = s0 ++ [z] ->
  exists s',
    (pp <- get_prior pos ;;
     set_prior x pp ;;;
     set_next z pos ;;;
     xp <- get_prior x ;;
     set_next xp x ;;;
     zn <- get_next z ;;
     set_prior zn z) s = Ret tt s' /\
    wf s' ((x :: seg ++ pos :: l) :: rs) ls /\ fr s s'.
Proof.
  intros [W C] Ez. pose proof W as (H1 & H2 & H3).
  destruct (wf_alloc _ _ _ pos W) as [[posn Npos] [pp Ppos]]; [cbn; auto|].
  destruct (wf_alloc _ _ _ x W) as [[xn Nx] [xp Px]]; [rewrite in_app_iff; cbn; auto|].
  assert (Iz : In z (x :: seg)) by (rewrite Ez, in_app_iff; cbn; auto).
  destruct (wf_alloc _ _ _ z W) as [[zn Nz] [zp Pz]]; [rewrite !in_app_iff; cbn in Iz |- *; tauto|].
  set (s1 := mkS (upd (upd (nx s) z (Some pos)) pp (Some x))
                 (upd (upd (pr s) x (Some pp)) pos (Some z)) (tk s) (fil s)).
  destruct (wf_attach s s1 x seg z pos l rs ls pp s0) as [D1 Ip]; auto.
  { split; auto. }
  destruct (wf_alloc _ _ _ pp W) as [[ppn Npp] _].
  { rewrite in_app_iff. left. cbn [concat]. rewrite in_app_iff. auto. }
  assert (ND : forall a, In a (x :: seg) -> ~ In a (pos :: l)).
  { intros a Ia Ib. apply NoDup_app_iff in H2. destruct H2 as (_ & _ & H2).
    apply (H2 a); cbn [concat]; rewrite !in_app_iff; auto. }
  assert (x <> pos) by (intros ->; apply (ND pos); cbn; auto).
  assert (pp <> z) by (intros ->; apply (ND z); auto).
  exists s1. split; [|split; auto; split; auto].
  run. reflexivity.
Qed.

(** [pos] is anywhere in what remains once the segment is removed *)
Lemma relink_range_spec s x seg y l1 rs ls pos l2 rs2 :
  wf s ((x :: seg ++ y :: l1) :: rs) ls ->
  (forall t L, wf t ((y :: l1) :: rs) L -> wf t ((pos :: l2) :: rs2) L) ->
  exists s', relink_range pos x y s = Ret tt s' /\
    wf s' ((x :: seg ++ pos :: l2) :: rs2) ls /\ fr s s'.
Proof.
  intros W RA. pose proof W as (H1 & H2 & H3). inversion H1 as [|? ? Hr Hrs]; subst.
  destruct (wf_alloc _ _ _ x W) as [_ [p Px]]; [cbn; auto|].
  destruct (wf_detach s (mkS (upd (nx s) p (Some y)) (upd (pr s) y (Some p)) (tk s) (fil s))
                      x seg y l1 rs ls p) as [[C1 C2] Ip]; auto.
  assert (Ep : exists v, nx s p = Some v).
  { destruct (wf_alloc _ _ _ p W) as [E _]; auto. cbn [concat].
    rewrite app_comm_cons, !in_app_iff. auto. }
  destruct (exists_last (l := x :: seg)) as (s0 & z & Ez); [easy|].
  assert (Pz : pr s y = Some z).
  { cbn [ring] in Hr. rewrite <- app_comm_cons, <- app_assoc, app_comm_cons, Ez, <- app_assoc in Hr.
    cbn in Hr. apply adj_app in Hr. cbn in Hr. unfold R in Hr. tauto. }
  assert (xy : x <> y).
  { intros ->. cbn [concat app] in H2. inversion_clear H2. cbn in *.
    rewrite !in_app_iff in *. cbn in *. rewrite ?in_app_iff in *. tauto. }
  apply RA in C1.
  destruct (attach_code _ pos x seg z s0 l2 _ ls (conj C1 C2) Ez) as (s' & E & W' & F).
  exists s'. split; [|split]; auto.
  erewrite relink_range_parts; eauto.
Qed.

(** ** Operations seen as lists hanging from a header *)
Lemma insert_at s h l1 l2 rs ls x :
  wf s ((h :: l1 ++ l2) :: rs) (x :: ls) ->
  exists s', link_before (hd h l2) x s = Ret tt s' /\
    wf s' ((h :: l1 ++ x :: l2) :: rs) ls /\ fr s s'.
Proof.
  intros W. apply (wf_rot s (h :: l1) l2) in W.
  destruct l2 as [|pos l2]; cbn [app hd] in *.
  - destruct (link_before_spec _ _ _ _ _ _ W) as (s' & E & W' & F).
    exists s'. split; [auto|split; auto]. apply (wf_rot s' [x] (h :: l1)). auto.
  - destruct (link_before_spec _ _ _ _ _ _ W) as (s' & E & W' & F).
    exists s'. split; [auto|split; auto]. apply (wf_rot s' (x :: pos :: l2) (h :: l1)). auto.
Qed.

Lemma unlink_at s h a x b rs ls :
  wf s ((h :: a ++ x :: b) :: rs) ls ->
  exists s', unlink x s = Ret tt s' /\ wf s' ((h :: a ++ b) :: rs) (x :: ls) /\ fr s s'.
Proof.
  intros W. apply (wf_rot s (h :: a) (x :: b)) in W. cbn [app] in W.
  assert (G : exists y l, b ++ h :: a = y :: l) by (destruct b; cbn; eauto).
  destruct G as (y & l & G). rewrite G in W.
  destruct (unlink_spec _ _ _ _ _ _ W) as (s' & E & W' & F). rewrite <- G in W'.
  exists s'. split; [auto|split; auto]. apply (wf_rot s' b (h :: a)). auto.
Qed.

Lemma relink_at s h a x b l1 l2 rs ls :
  wf s ((h :: a ++ x :: b) :: rs) ls ->
  a ++ b = l1 ++ l2 ->
  exists s', relink (hd h l2) x s = Ret tt s' /\
    wf s' ((h :: l1 ++ x :: l2) :: rs) ls /\ fr s s'.
Proof.
  intros W E. destruct (unlink_at _ _ _ _ _ _ _ W) as (s1 & E1 & W1 & F1).
  rewrite E in W1. destruct (insert_at _ _ _ _ _ _ _ W1) as (s2 & E2 & W2 & F2).
  exists s2. split; [|split; auto; eapply fr_trans; eauto].
  unfold relink. erewrite bind_ret by exact E1. exact E2.
Qed.

Lemma relink_across s h a x b h' l1 l2 rs ls :
  wf s ((h :: a ++ x :: b) :: (h' :: l1 ++ l2) :: rs) ls ->
  exists s', relink (hd h' l2) x s = Ret tt s' /\
    wf s' ((h :: a ++ b) :: (h' :: l1 ++ x :: l2) :: rs) ls /\ fr s s'.
Proof.
  intros W. destruct (unlink_at _ _ _ _ _ _ _ W) as (s1 & E1 & W1 & F1).
  eapply wf_perm in W1; [|apply perm_swap].
  destruct (insert_at _ _ _ _ _ _ _ W1) as (s2 & E2 & W2 & F2).
  exists s2. split; [|split; [eapply wf_perm; [exact W2|apply perm_swap]|eapply fr_trans; eauto]].
  unfold relink. erewrite bind_ret by exact E1. exact E2.
Qed.

Lemma relink_range_at s h a seg b l1 l2 rs ls :
  wf s ((h :: a ++ seg ++ b) :: rs) ls ->
  a ++ b = l1 ++ l2 ->
  exists s', relink_range (hd h l2) (hd h (seg ++ b)) (hd h b) s = Ret tt s' /\
    wf s' ((h :: l1 ++ seg ++ l2) :: rs) ls /\ fr s s'.
Proof.
  intros W E. destruct seg as [|x seg].
  - cbn [app] in *. unfold relink_range. rewrite Nat.eqb_refl. exists s. rewrite <- E. auto.
  - cbn [app hd] in *. apply (wf_rot s (h :: a) (x :: seg ++ b)) in W. cbn [app] in W.
    rewrite <- app_assoc in W.
    assert (G : exists l, b ++ h :: a = hd h b :: l) by (destruct b; cbn; eauto).
    destruct G as (l & G). rewrite G in W.
    assert (G2 : exists l, l2 ++ h :: l1 = hd h l2 :: l) by (destruct l2; cbn; eauto).
    destruct G2 as (l' & G2).
    destruct (relink_range_spec _ _ _ _ _ _ _ (hd h l2) l' rs W) as (s' & Es & W' & F).
    + intros t L. rewrite <- G, <- G2. intros H. apply (wf_rot t (h :: l1) l2).
      cbn [app]. rewrite <- E. apply (wf_rot t b (h :: a)). auto.
    + exists s'. split; [auto|split; auto]. rewrite <- G2, app_assoc in W'.
      apply (wf_rot s' (x :: seg ++ l2) (h :: l1)). auto.
Qed.

Lemma relink_range_across s h a seg b h' l1 l2 rs ls :
  wf s ((h :: a ++ seg ++ b) :: (h' :: l1 ++ l2) :: rs) ls ->
  exists s', relink_range (hd h' l2) (hd h (seg ++ b)) (hd h b) s = Ret tt s' /\
    wf s' ((h :: a ++ b) :: (h' :: l1 ++ seg ++ l2) :: rs) ls /\ fr s s'.
Proof.
  intros W. destruct seg as [|x seg].
  - cbn [app] in *. unfold relink_range. rewrite Nat.eqb_refl. exists s. auto.
  - cbn [app hd] in *. apply (wf_rot s (h :: a) (x :: seg ++ b)) in W. cbn [app] in W.
    rewrite <- app_assoc in W.
    assert (G : exists l, b ++ h :: a = hd h b :: l) by (destruct b; cbn; eauto).
    destruct G as (l & G). rewrite G in W.
    assert (G2 : exists l, l2 ++ h' :: l1 = hd h' l2 :: l) by (destruct l2; cbn; eauto).
    destruct G2 as (l' & G2).
    destruct (relink_range_spec _ _ _ _ _ _ _ (hd h' l2) l' ((h :: a ++ b) :: rs) W)
      as (s' & Es & W' & F).
    + intros t L. rewrite <- G, <- G2. intros H. apply (wf_rot t (h' :: l1) l2).
      cbn [app]. eapply wf_perm; [|apply perm_swap]. apply (wf_rot t b (h :: a)). auto.
    + exists s'. split; [auto|split; auto]. rewrite <- G2, app_assoc in W'.
      eapply wf_perm; [|apply perm_swap].
      apply (wf_rot s' (x :: seg ++ l2) (h' :: l1)). auto.
Qed.

Lemma init_spec s x rs ls :
  wf s rs (x :: ls) ->
  exists s', empty_initialize x s = Ret tt s' /\ wf s' ([x] :: rs) ls /\ fr s s'.
Proof.
  intros W. pose proof W as (H1 & H2 & H3).
  destruct (wf_alloc _ _ _ x W) as [[xn Nx] [xp Px]]; [rewrite in_app_iff; cbn; auto|].
  assert (ND : ~ In x (concat rs ++ ls)) by (apply NoDup_remove_2 in H2; auto).
  rewrite in_app_iff in ND.
  eexists. split; [unfold empty_initialize; run; reflexivity|].
  split; [|split; auto]. repeat split.
  - constructor.
    + cbn. split; auto. split; cbn; now rewrite upd_eq.
    + rewrite Forall_forall in *. intros r Ir. eapply ring_frame; [apply H1; auto|].
      intros a Ia. assert (In a (concat rs)) by (apply in_concat; eauto).
      cbn. rewrite !upd_neq; auto; intros ->; tauto.
  - cbn [concat]. eapply NoDup_perm; [|exact H2]. cbn. symmetry. apply Permutation_middle.
  - inversion_clear H3. rewrite Forall_forall in *. intros a Ia.
    unfold alloc. cbn. rewrite !upd_neq; [apply H0; auto|intros ->; tauto..].
Qed.

Lemma free_spec s x rs ls :
  wf s rs (x :: ls) ->
  exists s', free x s = Ret tt s' /\ wf s' rs ls /\ fr s s' /\ nx s' x = None /\ pr s' x = None /\
    (forall a, a <> x -> nx s' a = nx s a /\ pr s' a = pr s a).
Proof.
  intros W. pose proof W as (H1 & H2 & H3).
  destruct (wf_alloc _ _ _ x W) as [[xn Nx] [xp Px]]; [rewrite in_app_iff; cbn; auto|].
  assert (ND : ~ In x (concat rs ++ ls)) by (apply NoDup_remove_2 in H2; auto).
  rewrite in_app_iff in ND.
  eexists. split; [unfold free; rewrite Nx; reflexivity|].
  split; [|repeat split; cbn; rewrite ?upd_eq; auto; now rewrite upd_neq].
  repeat split.
  - rewrite Forall_forall in *. intros r Ir. eapply ring_frame; [apply H1; auto|].
    intros a Ia. assert (In a (concat rs)) by (apply in_concat; eauto).
    cbn. rewrite !upd_neq; auto; intros ->; tauto.
  - now apply NoDup_remove_1 in H2.
  - inversion_clear H3. rewrite Forall_forall in *. intros a Ia.
    unfold alloc. cbn. rewrite !upd_neq; [apply H0; auto|intros ->; tauto..].
Qed.

(** ** Ring from its parts; swap of two headers; reverse *)
Lemma adj_inner s s' l m f t z :
  adj (R s) l -> NoDup l -> l = f :: t -> l = m ++ [z] ->
  (forall a, In a l -> a <> z -> nx s' a = nx s a) ->
  (forall a, In a l -> a <> f -> pr s' a = pr s a) ->
  adj (R s') l.
Proof.
  intros H N E1 E2 F1 F2. eapply adj_mono; [exact H|].
  intros l1 a b l2 E [Ra Rb]. split.
  - rewrite F1; auto; [rewrite E, in_app_iff; cbn; auto|].
    eapply nodup_not_last; [|rewrite <- E2; exact E]. now rewrite <- E.
  - rewrite F2; auto; [rewrite E, in_app_iff; cbn; auto|].
    eapply nodup_not_first; [|rewrite <- E1; exact E]. now rewrite <- E.
Qed.

Lemma ring_parts s h f t m z :
  f :: t = m ++ [z] ->
  ring s (h :: f :: t) <-> R s h f /\ adj (R s) (f :: t) /\ R s z h.
Proof.
  intros E. cbn [ring app]. rewrite app_comm_cons, E.
  rewrite <- app_assoc. cbn [app].
  assert (G : forall l, adj (R s) (h :: m ++ z :: l) <-> R s h f /\ adj (R s) (m ++ z :: l)).
  { intros l. destruct m as [|c m]; cbn [app] in *; injection E; intros; subst; apply adj_cons2. }
  rewrite (G [h]), adj_app. cbn. tauto.
Qed.

(** effect of exchanging non-empty contents [f::t] into header [y] *)
Lemma ring_move s s' x y f t m z :
  ring s (x :: f :: t) -> NoDup (x :: f :: t) -> ~ In y (f :: t) -> f :: t = m ++ [z] ->
  nx s' y = Some f -> pr s' y = Some z -> nx s' z = Some y -> pr s' f = Some y ->
  (forall a, In a (f :: t) -> a <> z -> nx s' a = nx s a) ->
  (forall a, In a (f :: t) -> a <> f -> pr s' a = pr s a) ->
  ring s' (y :: f :: t).
Proof.
  intros H N Y E A B C D F1 F2.
  apply (ring_parts _ _ _ _ _ _ E) in H. apply (ring_parts _ _ _ _ _ _ E).
  destruct H as (_ & H & _). split; [|split].
  - split; auto.
  - inversion_clear N. eapply adj_inner; eauto.
  - split; auto.
Qed.

Lemma swap_spec s x lx y ly rs ls :
  wf s ((x :: lx) :: (y :: ly) :: rs) ls ->
  exists s', swap_links x y s = Ret tt s' /\ wf s' ((x :: ly) :: (y :: lx) :: rs) ls /\ fr s s'.
Proof.
  intros W. pose proof W as (H1 & H2 & H3).
  inversion H1 as [|? ? Hx H1']; subst. inversion H1' as [|? ? Hy Hrs]; subst.
  assert (N2 : NoDup (concat ((x :: ly) :: (y :: lx) :: rs) ++ ls)).
  { eapply NoDup_perm; [|exact H2]. apply Permutation_app_tail. cbn. constructor.
    rewrite <- !Permutation_middle. constructor. rewrite !app_assoc.
    apply Permutation_app_tail, Permutation_app_comm. }
  assert (Nd : NoDup ((x :: lx) ++ (y :: ly)) /\ forall a, In a ((x :: lx) ++ (y :: ly)) -> ~ In a (concat rs) /\ ~ In a ls).
  { cbn [concat] in H2. rewrite app_assoc, <- (app_assoc _ (concat rs)) in H2. apply NoDup_app_iff in H2.
    destruct H2 as (A & _ & C). split; auto. intros a Ia. specialize (C a Ia).
    rewrite in_app_iff in C. tauto. }
  destruct Nd as [Nd D]. apply NoDup_app_iff in Nd. destruct Nd as (Ndx & Ndy & Dxy).
  assert (FIN : forall s', ring s' (x :: ly) -> ring s' (y :: lx) ->
      (forall a, ~ In a ((x :: lx) ++ (y :: ly)) -> nx s' a = nx s a /\ pr s' a = pr s a) ->
      wf s' ((x :: ly) :: (y :: lx) :: rs) ls).
  { intros s' A B F. repeat split; auto.
    - constructor; auto. constructor; auto. rewrite Forall_forall in *. intros r Ir.
      eapply ring_frame; [apply Hrs; auto|]. intros a Ia.
      assert (In a (concat rs)) by (apply in_concat; eauto).
      apply F. intros C. destruct (D a C). tauto.
    - rewrite Forall_forall in *. intros a Ia. destruct (F a) as [F1 F2].
      { intros C. destruct (D a C). tauto. }
      unfold alloc. rewrite F1, F2. apply H3; auto. }
  assert (xy : x <> y) by (intros ->; apply (Dxy y); cbn; auto).
  unfold swap_links.
  destruct lx as [|fx tx], ly as [|fy ty].
  - cbn [ring app] in Hx, Hy. destruct Hx as [[Nx Px] _], Hy as [[Ny Py] _].
    run. rewrite !Nat.eqb_refl. cbn. exists s. auto.
  - destruct (exists_last (l := fy :: ty)) as (my & zy & Ey); [easy|].
    pose proof Hx as [[Nx Px] _].
    pose proof Hy as Hy'. rewrite (ring_parts _ _ _ _ _ _ Ey) in Hy'.
    destruct Hy' as ([Ny Pf] & _ & [Nz Py]).
    assert (If : In fy (fy :: ty)) by (cbn; auto).
    assert (Iz : In zy (fy :: ty)) by (rewrite Ey, in_app_iff; cbn; auto).
    inversion Ndy as [|? ? NIy NDy]; subst.
    assert (fy <> y) by (intros ->; auto). assert (zy <> y) by (intros ->; auto).
    assert (fy <> x) by (intros ->; apply (Dxy x); cbn; auto).
    assert (zy <> x) by (intros ->; apply (Dxy x); cbn in *; auto).
    assert (Ix : ~ In x (fy :: ty)) by (intros C; apply (Dxy x); cbn in *; auto).
    unfold adopt. run. rewrite Nat.eqb_refl. cbn [negb].
    destruct (Nat.eqb_spec fy y); [easy|]. cbn [negb]. run.
    eexists. split; [reflexivity|]. split; [|split; auto]. apply FIN.
    + eapply ring_move with (s := s) (x := y); eauto; cbn [nx pr]; ups; auto.
      * intros a Ia Na. assert (a <> x /\ a <> y) as [] by (split; intros ->; tauto). ups. auto.
      * intros a Ia Na. assert (a <> x /\ a <> y) as [] by (split; intros ->; tauto). ups. auto.
    + cbn. split; auto. split; cbn; ups; auto.
    + intros a Ia. cbn in Ia. cbn [nx pr].
      assert (a <> x /\ a <> y /\ a <> fy) as (? & ? & ?) by (repeat split; intros ->; tauto).
      assert (a <> zy) by (intros ->; cbn in Iz; tauto). ups. auto.
  - destruct (exists_last (l := fx :: tx)) as (mx & zx & Ex); [easy|].
    pose proof Hy as [[Ny Py] _].
    pose proof Hx as Hx'. rewrite (ring_parts _ _ _ _ _ _ Ex) in Hx'.
    destruct Hx' as ([Nx Pf] & _ & [Nz Px]).
    assert (If : In fx (fx :: tx)) by (cbn; auto).
    assert (Iz : In zx (fx :: tx)) by (rewrite Ex, in_app_iff; cbn; auto).
    inversion Ndx as [|? ? NIx NDx]; subst.
    assert (fx <> x) by (intros ->; auto). assert (zx <> x) by (intros ->; auto).
    assert (Iy : ~ In y (fx :: tx)) by (intros C; apply (Dxy y); [right; auto|cbn; auto]).
    assert (fx <> y) by (intros ->; auto). assert (zx <> y) by (intros ->; auto).
    unfold adopt. run. rewrite Nat.eqb_refl. cbn [negb].
    destruct (Nat.eqb_spec fx x); [easy|]. cbn [negb]. run.
    eexists. split; [reflexivity|]. split; [|split; auto]. apply FIN.
    + cbn. split; auto. split; cbn; ups; auto.
    + eapply ring_move with (s := s) (x := x); eauto; cbn [nx pr]; ups; auto.
      * intros a Ia Na. assert (a <> x /\ a <> y) as [] by (split; intros ->; tauto). ups. auto.
      * intros a Ia Na. assert (a <> x /\ a <> y) as [] by (split; intros ->; tauto). ups. auto.
    + intros a Ia. cbn [nx pr]. rewrite in_app_iff in Ia.
      assert (a <> x /\ a <> y /\ a <> fx) as (? & ? & ?) by (cbn in Ia; repeat split; intros ->; tauto).
      assert (a <> zx) by (intros ->; cbn in Ia, Iz; tauto). ups. auto.
  - destruct (exists_last (l := fx :: tx)) as (mx & zx & Ex); [easy|].
    destruct (exists_last (l := fy :: ty)) as (my & zy & Ey); [easy|].
    pose proof Hx as Hx'. rewrite (ring_parts _ _ _ _ _ _ Ex) in Hx'.
    destruct Hx' as ([Nx Pfx] & _ & [Nzx Px]).
    pose proof Hy as Hy'. rewrite (ring_parts _ _ _ _ _ _ Ey) in Hy'.
    destruct Hy' as ([Ny Pfy] & _ & [Nzy Py]).
    assert (Ifx : In fx (fx :: tx)) by (cbn; auto).
    assert (Izx : In zx (fx :: tx)) by (rewrite Ex, in_app_iff; cbn; auto).
    assert (Ify : In fy (fy :: ty)) by (cbn; auto).
    assert (Izy : In zy (fy :: ty)) by (rewrite Ey, in_app_iff; cbn; auto).
    inversion Ndx as [|? ? NIx NDx]; subst. inversion Ndy as [|? ? NIy NDy]; subst.
    assert (Dd : forall a, In a (fx :: tx) -> ~ In a (fy :: ty)).
    { intros a A B. apply (Dxy a); right; auto. }
    assert (Iy : ~ In y (fx :: tx)) by (intros C; apply (Dxy y); [right; auto|cbn; auto]).
    assert (Ix : ~ In x (fy :: ty)) by (intros C; apply (Dxy x); [cbn; auto|right; auto]).
    assert (fx <> x) by (intros ->; auto). assert (zx <> x) by (intros ->; auto).
    assert (fx <> y) by (intros ->; auto). assert (zx <> y) by (intros ->; auto).
    assert (fy <> x) by (intros ->; auto). assert (zy <> x) by (intros ->; auto).
    assert (fy <> y) by (intros ->; auto). assert (zy <> y) by (intros ->; auto).
    assert (fx <> fy) by (intros ->; eapply Dd; eauto).
    assert (zx <> zy) by (intros ->; eapply Dd; eauto).
    assert (fx <> zy) by (intros ->; eapply Dd; eauto).
    assert (zx <> fy) by (intros ->; eapply Dd; eauto).
    unfold adopt. run. destruct (Nat.eqb_spec fx x); [easy|].
    destruct (Nat.eqb_spec fy y); [easy|]. cbn [negb]. run.
    eexists. split; [reflexivity|]. split; [|split; auto]. apply FIN.
    + eapply ring_move with (s := s) (x := y); eauto; cbn [nx pr]; ups; auto.
      * intros a Ia Na. assert (a <> x /\ a <> y /\ a <> zx) as (?&?&?)
          by (repeat split; intros Q; subst a; first [tauto | match goal with H : In ?b (_ :: _) |- _ => solve [apply (Dd b); auto] end]). ups. auto.
      * intros a Ia Na. assert (a <> x /\ a <> y /\ a <> fx) as (?&?&?)
          by (repeat split; intros Q; subst a; first [tauto | match goal with H : In ?b (_ :: _) |- _ => solve [apply (Dd b); auto] end]). ups. auto.
    + eapply ring_move with (s := s) (x := x); eauto; cbn [nx pr]; ups; auto.
      * intros a Ia Na. assert (a <> x /\ a <> y /\ a <> zy) as (?&?&?)
          by (repeat split; intros Q; subst a; first [tauto | match goal with H : In ?b (_ :: _) |- _ => solve [apply (Dd b); auto] end]). ups. auto.
      * intros a Ia Na. assert (a <> x /\ a <> y /\ a <> fy) as (?&?&?)
          by (repeat split; intros Q; subst a; first [tauto | match goal with H : In ?b (_ :: _) |- _ => solve [apply (Dd b); auto] end]). ups. auto.
    + intros a Ia. cbn [nx pr]. rewrite in_app_iff in Ia.
      assert (a <> x /\ a <> y /\ a <> fx /\ a <> fy) as (? & ? & ? & ?)
        by (cbn in Ia; repeat split; intros ->; tauto).
      assert (a <> zx) by (intros ->; cbn in Ia, Izx; tauto).
      assert (a <> zy) by (intros ->; cbn in Ia, Izy; tauto). ups. auto.
Qed.

Lemma reverse_loop_spec s0 h : forall t x fuel s,
  adj (R s0) (x :: t ++ [h]) -> NoDup (x :: t) -> ~ In h t ->
  (forall a, In a (x :: t) -> nx s a = nx s0 a /\ pr s a = pr s0 a) ->
  (exists v, pr s0 x = Some v) ->
  length t < fuel ->
  exists s', reverse_loop fuel h x s = Ret tt s' /\ fr s s' /\
    (forall a, In a (x :: t) -> nx s' a = pr s0 a /\ pr s' a = nx s0 a) /\
    (forall a, ~ In a (x :: t) -> nx s' a = nx s a /\ pr s' a = pr s a).
Proof.
  induction t as [|y t IH]; intros x fuel s A N H F P L; (destruct fuel as [|fuel]; [cbn in L; lia|]).
  - cbn [app] in A. destruct A as [[Nx _] _]. destruct P as [p Px].
    destruct (F x) as [F1 F2]; [cbn; auto|].
    rewrite Nx in F1. rewrite Px in F2.
    cbn [reverse_loop]. run. rewrite Nat.eqb_refl.
    eexists. split; [reflexivity|]. split; [split; auto|]. cbn. split.
    + intros a [<-|[]]. ups. auto.
    + intros a Ha. assert (a <> x) by (intros ->; tauto). ups. auto.
  - cbn [app] in A. apply adj_cons2 in A. destruct A as [[Nx Py] A]. destruct P as [p Px].
    destruct (F x) as [F1 F2]; [cbn; auto|].
    rewrite Nx in F1. rewrite Px in F2.
    inversion_clear N as [|? ? NIx N'].
    assert (y <> h) by (intros ->; apply H; cbn; auto).
    cbn [reverse_loop]. run. destruct (Nat.eqb_spec y h); [easy|].
    match goal with |- context [reverse_loop fuel h y ?st] => set (s1 := st) end.
    destruct (IH y fuel s1) as (s' & E & F' & B & C); auto.
    + intros C; apply H; cbn; auto.
    + intros a Ia. assert (a <> x) by (intros ->; auto). cbn. ups. apply F. cbn in *; auto.
    + eauto.
    + cbn in L; lia.
    + exists s'. split; [exact E|]. split; [exact F'|]. split.
      * intros a [<-|Ia]; [|auto]. destruct (C x NIx) as [C1 C2].
        rewrite C1, C2. cbn. ups. split; congruence.
      * intros a Ia. destruct (C a) as [C1 C2]; [cbn in *; tauto|].
        rewrite C1, C2. assert (a <> x) by (cbn in *; intros ->; tauto). cbn. ups. auto.
Qed.

Lemma adj_rev {A} (P Q : A -> A -> Prop) l :
  adj P l -> (forall a b, In a l -> In b l -> P a b -> Q b a) -> adj Q (rev l).
Proof.
  induction l as [|a l IH]; [easy|]. intros H PQ.
  destruct l as [|b l]; [easy|]. apply adj_cons2 in H. destruct H as [H1 H2].
  cbn [rev] in *. rewrite <- app_assoc. cbn [app]. apply adj_app. split.
  - apply IH; auto. intros; apply PQ; cbn in *; tauto.
  - cbn. split; auto. apply PQ; cbn; auto.
Qed.

Lemma reverse_spec s h l rs ls fuel :
  wf s ((h :: l) :: rs) ls -> length l < fuel ->
  exists s', reverse fuel h s = Ret tt s' /\ wf s' ((h :: rev l) :: rs) ls /\ fr s s'.
Proof.
  intros W L. pose proof W as (H1 & H2 & H3). inversion H1 as [|? ? Hr Hrs]; subst.
  assert (ND : NoDup (h :: l) /\ forall a, In a (h :: l) -> ~ In a (concat rs) /\ ~ In a ls).
  { cbn [concat] in H2. rewrite <- app_assoc in H2. apply NoDup_app_iff in H2.
    destruct H2 as (A & _ & C). split; auto. intros a Ia. specialize (C a Ia).
    rewrite in_app_iff in C. tauto. }
  destruct ND as [ND D]. inversion ND; subst.
  destruct (reverse_loop_spec s h l h fuel s) as (s' & E & F & B & C); auto.
  { destruct (ring_alloc _ _ h Hr); cbn; auto. }
  exists s'. split; [exact E|]. split; [|exact F]. repeat split.
  - constructor.
    + cbn [ring]. replace ((h :: rev l) ++ [h]) with (rev (h :: l ++ [h])).
      2:{ cbn. rewrite rev_app_distr. reflexivity. }
      eapply adj_rev; [exact Hr|]. intros a b Ia Ib [Rab Rba].
      assert (Ia' : In a (h :: l)) by (cbn in Ia; rewrite in_app_iff in Ia; cbn in *; tauto).
      assert (Ib' : In b (h :: l)) by (cbn in Ib; rewrite in_app_iff in Ib; cbn in *; tauto).
      destruct (B a Ia'), (B b Ib'). split; congruence.
    + rewrite Forall_forall in *. intros r Ir. eapply ring_frame; [apply Hrs; auto|].
      intros a Ia. assert (In a (concat rs)) by (apply in_concat; eauto).
      apply C. intros Ic. destruct (D a Ic). tauto.
  - eapply NoDup_perm; [|exact H2]. cbn [concat]. rewrite <- !app_assoc.
    apply Permutation_app_tail. constructor. apply Permutation_rev.
  - rewrite Forall_forall in *. intros a Ia. destruct (C a) as [F1 F2].
    { intros Ic. destruct (D a Ic). tauto. }
    unfold alloc. rewrite F1, F2. apply H3; auto.
Qed.
