(** An unlinked node can be put back by undoing the tracked assignments. *)
From Verif Require Import Prelude Layer LayerBase HashModel HashHeap HashAlg HashIdx.
Set Implicit Arguments.

Fixpoint backto (t : list cell) (h : heap) : heap :=
  match t with [] => h | (l, v) :: t => backto t (hset h l (Some v)) end.
Definition heq (h h' : heap) : Prop := forall l, h l = h' l.
Definition dom (h h' : heap) : Prop := forall l, h l = None <-> h' l = None.

Lemma backto_ext t h h' : heq h h' -> heq (backto t h) (backto t h').
Proof.
  revert h h'. induction t as [|(l, v) t IH]; intros h h' E; [exact E|]. cbn. apply IH. intros k. unfold hset.
  destruct (loc_eqb k l); auto.
Qed.
Lemma backto_other t h l : ~ In l (map fst t) -> backto t h l = h l.
Proof.
  revert h. induction t as [|(m, v) t IH]; intros h N; [reflexivity|]. cbn in *. rewrite IH by tauto. unfold hset.
  destruct (loc_eqb_spec l m); [|reflexivity]. subst. tauto.
Qed.
Lemma backto_hset t h l v : ~ In l (map fst t) -> heq (backto t (hset h l v)) (hset (backto t h) l v).
Proof.
  revert h. induction t as [|(m, w) t IH]; intros h N k; [reflexivity|]. cbn in *.
  rewrite (backto_ext t (h := hset (hset h l v) m (Some w)) (h' := hset (hset h m (Some w)) l v)).
  - apply IH. tauto.
  - intros j. unfold hset. destruct (loc_eqb_spec j m), (loc_eqb_spec j l); try congruence. exfalso. apply N. left. congruence.
Qed.

Definition is_pr (l : loc) : Prop := match l with PR _ => True | NX _ => False end.
Definition undoable (h0 : heap) (s : heap * tracks) : Prop :=
  Forall (fun c => is_pr (fst c) /\ h0 (fst c) <> None) (fst (snd s)) /\
  Forall (fun c => ~ is_pr (fst c) /\ h0 (fst c) <> None) (snd (snd s)) /\
  dom (fst s) h0 /\ heq (backto (snd (snd s)) (backto (fst (snd s)) (fst s))) h0.
Definition keeps {A} (m : UM A) : Prop :=
  forall h0 s, undoable h0 s -> match m s with Ret _ s' => undoable h0 s' | Exn _ => False | UB => True end.

Lemma keeps_ret {A} (v : A) : keeps (ret v).
Proof. intros h0 s H. exact H. Qed.
Lemma keeps_bind {A B} (m : UM A) (k : A -> UM B) : keeps m -> (forall v, keeps (k v)) -> keeps (bind m k).
Proof.
  intros Km Kk h0 s H. specialize (Km h0 s H). unfold bind. destruct (m s); auto. now apply Kk.
Qed.
Definition reads {A} (m : HM A) : Prop := forall h, match m h with Ret _ h' => h' = h | Exn _ => False | UB => True end.
Lemma reads_ret {A} (v : A) : reads (ret v).
Proof. now intros h. Qed.
Lemma reads_ub {A} : reads (@ub heap A).
Proof. now intros h. Qed.
Lemma reads_rd l : reads (rd l).
Proof. intros h. unfold rd. now destruct (h l). Qed.
Lemma reads_bind {A B} (m : HM A) (k : A -> HM B) : reads m -> (forall v, reads (k v)) -> reads (bind m k).
Proof.
  intros Km Kk h. specialize (Km h). unfold bind. destruct (m h); auto. subst. apply Kk.
Qed.
Lemma reads_pfrom b : reads (pfrom b).
Proof. destruct b; [apply reads_ret|apply reads_ub]. Qed.
Lemma reads_if {A} (b : bool) (m m' : HM A) : reads m -> reads m' -> reads (if b then m else m').
Proof. now destruct b. Qed.
Lemma keeps_if {A} (b : bool) (m m' : UM A) : keeps m -> keeps m' -> keeps (if b then m else m').
Proof. now destruct b. Qed.
Lemma keeps_read {A} (m : HM A) : reads m -> keeps (hM m).
Proof.
  intros R h0 (h, t) H. unfold ownM, lensM. cbn. specialize (R h). destruct (m h); auto. now subst.
Qed.
Lemma keeps_asg l v : keeps (asg true l v).
Proof.
  intros h0 (h, (P, B)) (HP & HB & HD & HE). cbn [fst snd] in *. unfold asg, bind, ownM, supM, lensM, rd, track. cbn [fst snd].
  destruct (h l) as [old|] eqn:E; [|exact I].
  assert (Dl : h0 l <> None). { intros F. apply HD in F. congruence. }
  assert (Dh : dom (hset h l (Some v)) h0).
  { intros k. unfold hset. destruct (loc_eqb_spec k l) as [->|]; [|apply HD]. split; [easy|]. intros F. contradiction. }
  destruct l as [b|x].
  - destruct (_ <? 3); [|exact I]. cbn [fst snd]. unfold wr. rewrite E. cbn [fst snd].
    split; [|split; [|split]]; cbn [fst snd]; [constructor; cbn; auto|auto|exact Dh|].
    intros k. rewrite <- HE. apply backto_ext. cbn [backto]. apply backto_ext. intros j. unfold hset.
    destruct (loc_eqb_spec j (PR b)) as [->|]; auto.
  - destruct (_ <? 2); [|exact I]. cbn [fst snd]. unfold wr. rewrite E. cbn [fst snd].
    assert (NP : ~ In (NX x) (map fst P)).
    { intros J. apply in_map_iff in J as (c & Ec & J). rewrite Forall_forall in HP. specialize (HP c J). rewrite Ec in HP. cbn in HP. tauto. }
    split; [|split; [|split]]; cbn [fst snd]; [auto|constructor; cbn; auto|exact Dh|].
    intros k. rewrite <- HE. cbn [backto]. apply backto_ext. intros j.
    unfold hset at 1. destruct (loc_eqb_spec j (NX x)) as [->|Ne].
    + rewrite backto_other by auto. now rewrite E.
    + rewrite backto_hset by auto. unfold hset. destruct (loc_eqb_spec j (NX x)); congruence.
Qed.
Lemma put_back_eq t h h0 : dom h h0 -> Forall (fun c => h0 (fst c) <> None) t -> put_back t h = Ret tt (backto t h) /\ dom (backto t h) h0.
Proof.
  revert h. induction t as [|(l, v) t IH]; intros h D F; [split; auto|]. inversion F as [|? ? F1 F2]; subst. cbn in F1.
  cbn. unfold bind, wr. destruct (h l) eqn:E; [|exfalso; apply F1; now apply D].
  apply IH; auto. intros k. unfold hset. destruct (loc_eqb_spec k l) as [->|]; [|apply D]. split; [easy|]. intros G. contradiction.
Qed.
Lemma undo_spec h0 h t : undoable h0 (h, t) -> exists h', undo t h = Ret tt h' /\ heq h' h0.
Proof.
  intros (HP & HB & HD & HE). cbn [fst snd] in *. destruct t as (P, B). cbn [fst snd] in *. unfold undo, bind. cbn [fst snd].
  destruct (@put_back_eq P h h0 HD) as (E1 & D1). { eapply Forall_impl; [|exact HP]. cbn. tauto. }
  destruct (@put_back_eq B (backto P h) h0 D1) as (E2 & D2). { eapply Forall_impl; [|exact HB]. cbn. tauto. }
  rewrite E1, E2. eexists. split; [reflexivity|exact HE].
Qed.

Ltac kp := repeat first
  [ apply keeps_ret | apply keeps_asg | apply keeps_if | apply keeps_bind; [|intros ?] | apply keeps_read
  | apply reads_ret | apply reads_rd | apply reads_pfrom | apply reads_if | apply reads_bind; [|intros ?] ].
Lemma alg_unlink_keeps uniq x : keeps (alg_unlink uniq true x).
Proof.
  unfold alg_unlink. destruct uniq.
  - unfold u_unlink, u_first_of_bucket, u_last_of_bucket, pri, nxt. kp.
  - unfold n_unlink, linked_left, linked_right, n_last_of_bucket, n_first_of_bucket, group_end, is_second, left_unlink,
    right_unlink, right_unlink_last_of_bucket, left_unlink_first_of_bucket, right_unlink_first_of_group,
    left_unlink_last_of_group, unlink_last_but_one_of_group, unlink_second_of_group, pri, nxt. kp.
Qed.
(** what was tracked puts everything back *)
Theorem tracked_undo uniq x h :
  match tracked (alg_unlink uniq true x) h with
  | Ret t h' => exists h'', undo t h' = Ret tt h'' /\ heq h'' h
  | Exn _ => False
  | UB => True
  end.
Proof.
  assert (K := @alg_unlink_keeps uniq x h (h, ([], []))). unfold tracked. specialize (K ltac:(repeat split; cbn; auto; constructor)).
  destruct (alg_unlink uniq true x (h, ([], []))) as [u (h', t)|(h', t)|]; auto. now apply undo_spec.
Qed.
