(** What the client of a hashed index sees of its arrangement: the sequence of its elements. *)
From Verif Require Import Prelude Layer HashModel HashHeap HashLay HashOps HashSpec.
Set Implicit Arguments.

Section Seq.
Context {V K : Type}.
Variable key : V -> K.
Variable eq : K -> K -> bool.
Variable hash : K -> nat.
Variable uniq : bool.

(** the elements of [l] whose keys are equivalent to [k], in order *)
Definition having (val : node -> V) (k : K) (l : list node) : list node := filter (fun y => eq k (key (val y))) l.
(** elements with equivalent keys are next to each other, and there is but one when keys are unique *)
Definition h_legal (val : node -> V) (l : list node) : Prop :=
  forall k, (exists l1 l2, l = l1 ++ having val k l ++ l2) /\ (uniq = true -> length (having val k l) <= 1).
(** groups of equivalent elements may have moved as a whole *)
Definition h_same (val : node -> V) (l l' : list node) : Prop :=
  Permutation l l' /\ forall k, having val k l' = having val k l.
(** [x] has been put in front of the elements equivalent to it *)
Definition h_placed (val : node -> V) (x : node) (l l' : list node) : Prop :=
  Permutation l' (x :: l) /\
  forall k, having val k l' = (if eq k (key (val x)) then [x] else []) ++ having val k l.
(** [x] is where it was or has been put in front of the elements equivalent to it; the others have not moved *)
Definition h_moved (val : node -> V) (x : node) (l l' : list node) : Prop :=
  l' = l \/ remove Nat.eq_dec x l' = remove Nat.eq_dec x l /\ h_placed val x (remove Nat.eq_dec x l) l'.

Hypothesis HO : heq_ok eq hash.
Notation classes := (classes key eq hash uniq).
Notation hok := (hok key eq hash uniq).

Lemma having_app val k l l' : having val k (l ++ l') = having val k l ++ having val k l'.
Proof. apply filter_app. Qed.
Lemma having_none val k l : (forall y, In y l -> eq k (key (val y)) = false) -> having val k l = [].
Proof. induction l as [|y l IH]; cbn; intros H; auto. rewrite H by auto. apply IH. auto. Qed.
Lemma having_elems val k G : having val k (elems G) = flat_map (having val k) (map snd G).
Proof. induction G as [|(i, g) G IH]; auto. rewrite elems_cons, having_app, IH. reflexivity. Qed.

Definition lone (val : node -> V) (k : K) (g h : list node) : Prop := having val k g = [] \/ having val k h = [].
Lemma lone_sym val k g h : lone val k g h -> lone val k h g.
Proof. unfold lone. tauto. Qed.
Lemma having_perm val k Gs Gs' : Permutation Gs Gs' -> ForallOrdPairs (lone val k) Gs ->
  flat_map (having val k) Gs = flat_map (having val k) Gs'.
Proof.
  intros P. induction P as [|g l l' P IH|g h l|l l' l'' P IH P' IH']; intros F; cbn; auto.
  - inversion F; subst. f_equal; auto.
  - inversion F as [|? ? F1 F2]; subst. inversion F1 as [|? ? R1 F5]; subst. rewrite !app_assoc. f_equal.
    destruct R1 as [-> | ->]; now rewrite app_nil_r.
  - rewrite IH by auto. apply IH'. eapply fop_perm; [exact (@lone_sym val k)|exact P|exact F].
Qed.
Lemma apart_lone val k c d : apart key eq val c d -> lone val k (snd c) (snd d).
Proof.
  intros A. unfold lone. destruct (having val k (snd c)) as [|y l] eqn:E; auto. right. apply having_none. intros z Z.
  assert (Y : In y (having val k (snd c))) by (rewrite E; now left). apply filter_In in Y as (Y & Ey).
  destruct (eq k (key (val z))) eqn:Ez; auto. rewrite <- (A y z Y Z). symmetry. eapply (q_trans HO); [apply (q_sym HO), Ey|exact Ez].
Qed.
Lemma lone_classes val k G : ForallOrdPairs (apart key eq val) G -> ForallOrdPairs (lone val k) (map snd G).
Proof.
  induction 1 as [|c G A F IH]; cbn; constructor; auto. rewrite Forall_forall in *. intros g Hg. apply in_map_iff in Hg as (d & <- & Hd).
  apply apart_lone. auto.
Qed.

Lemma having_all val k l : (forall y, In y l -> eq k (key (val y)) = true) -> having val k l = l.
Proof. induction l as [|y l IH]; cbn; intros H; auto. rewrite H by auto. f_equal. apply IH. auto. Qed.
(** a class as a whole has the key or not *)
Lemma class_having val k n c : class key eq hash uniq val n c -> having val k (snd c) = [] \/ having val k (snd c) = snd c.
Proof.
  intros (_ & _ & Q & _). destruct (having val k (snd c)) as [|y l] eqn:E; auto. right. rewrite <- E. apply having_all. intros z Z.
  assert (Y : In y (having val k (snd c))) by (rewrite E; now left). apply filter_In in Y as (Y & Ey).
  eapply (q_trans HO); [exact Ey|]. auto.
Qed.
Lemma hok_legal val a : hok val a -> h_legal val (elems (snd a)).
Proof.
  intros (G & E & C & F) k. rewrite E, elems_flat. clear E.
  induction F as [|c G A F IH].
  - cbn. split; [now exists [], []|lia].
  - inversion C as [|? ? C1 C']; subst. destruct (IH C') as ((l1 & l2 & E) & U). clear IH.
    destruct c as (i, g). rewrite elems_cons. rewrite having_app.
    destruct (class_having k C1) as [H|H]; cbn [snd] in H; rewrite H; cbn [app].
    + split; [exists (g ++ l1), l2; rewrite <- app_assoc; now f_equal|exact U].
    + assert (N : having val k (elems G) = []).
      { destruct C1 as (Ne & _). cbn [snd] in Ne. rewrite having_elems. rewrite Forall_forall in A.
        assert (B : forall d, In d G -> having val k (snd d) = []).
        { intros d Hd. destruct (@apart_lone val k _ _ (A d Hd)) as [D|D]; auto. cbn [snd] in D. congruence. }
        clear - B. induction G as [|d G IH]; cbn; auto. rewrite B by now left. apply IH. intros e He. apply B. now right. }
      rewrite N, app_nil_r. split; [exists [], (elems G); reflexivity|]. intros Uq. destruct C1 as (_ & _ & _ & Us). cbn [snd] in Us.
      rewrite (Us Uq). lia.
Qed.
Lemma hsame_same val a a' : hok val a -> hsame key hash val a a' -> h_same val (elems (snd a)) (elems (snd a')).
Proof.
  intros (G & C) H. split; [exact (hsame_els H)|]. intros k. destruct H as [-> |(n & ->)]; auto. cbn [snd].
  assert (C' := classes_rehash HO n C). destruct C' as (-> & _ & F'), C as (-> & _ & F).
  rewrite !elems_flat, !having_elems. apply having_perm; [|now apply lone_classes].
  assert (P := rehash_perm (pos_of key hash val n) G). apply (Permutation_map snd) in P. rewrite map_map in P. exact P.
Qed.
Lemma hput_placed val x a a' : hput key eq hash uniq val x a a' -> h_placed val x (elems (snd a)) (elems (snd a')).
Proof.
  intros H. split; [exact (hput_els H)|]. intros k. destruct H as (_ & G & G' & (-> & C & F) & Nx & A & ->). rewrite !elems_flat.
  destruct A as [G1 i g G2 E|G E].
  - rewrite !elems_app, !elems_cons. cbn [app]. rewrite !having_app. unfold having at 2. cbn [filter].
    fold (having val k (g ++ elems G2)). rewrite having_app. destruct (eq k (key (val x))) eqn:Ex; [|reflexivity].
    assert (N : having val k (elems G1) = []).
    { apply having_none. intros y Y. apply in_elems in Y as (d & Hd & Y). apply fop_app in F as (_ & _ & F).
      specialize (F d (i, g) Hd (or_introl eq_refl)). apply Forall_app in C as (_ & C). inversion C as [|? ? (Ne & _) _]; subst. cbn [snd] in Ne.
      destruct g as [|z g]; [easy|]. specialize (F y z Y (or_introl eq_refl)). destruct (eq k (key (val y))) eqn:Ey; auto.
      rewrite <- F. symmetry. eapply (q_trans HO); [apply (q_sym HO), Ey|]. eapply (q_trans HO); [exact Ex|]. apply E. now left. }
    rewrite N. reflexivity.
  - assert (P := ins_perm (position (hash (key (val x))) (fst a)) [x] G). apply (Permutation_map snd) in P. cbn [map snd] in P.
    rewrite !having_elems. rewrite <- (having_perm (Permutation_sym P)).
    + cbn [flat_map having filter]. destruct (eq k (key (val x))); reflexivity.
    + constructor; [|now apply lone_classes]. apply Forall_forall. intros g Hg. apply in_map_iff in Hg as (d & <- & Hd).
      apply (@apart_lone val k (0, [x]) d). intros y z [<-|[]] Z. apply E, in_elems. eauto.
Qed.
Lemma hins_placed val h a x a' : hok val a -> hins key eq hash uniq val h a x a' -> h_placed val x (elems (snd a)) (elems (snd a')).
Proof.
  intros H (a1 & S & P). destruct (hsame_same H S) as (P1 & E1), (hput_placed P) as (P2 & E2). split.
  - now rewrite P2, P1.
  - intros k. rewrite E2. now rewrite E1.
Qed.
Lemma hmov_moved val x a a' : hmov key eq hash uniq val x a a' -> h_moved val x (elems (snd a)) (elems (snd a')).
Proof.
  intros H. assert (R := hmov_rem H). destruct H as [-> |(X & N & P)]; [now left|right]. split.
  - rewrite <- !elems_rem. apply (f_equal snd) in R. cbn [hrem snd] in R. now rewrite R.
  - apply hput_placed in P. cbn [hrem snd] in P. now rewrite elems_rem in P.
Qed.
End Seq.
