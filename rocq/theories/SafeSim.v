(** Safe mode does what SafeSpec.v says: the operations one by one *)
From Coq Require Import ZArith Permutation.
From Verif Require Import Prelude Safe SafeOk SafeSpec.
Set Implicit Arguments.

Notation iterA := iter_of.
Definition toW (v : abs) : world := W (fun a => option_map iterA (fst v a)) (snd v).
Definition tidy (v : abs) : Prop := forall a n c u, fst v a = Some (n, c, u) -> c <> 0 -> u = false.
Lemma it_at v a c n : tidy v -> it (toW v) a (At c n) <-> c <> 0 /\ fst v a = Some (n, c, false).
Proof.
  intros Ty. unfold it. cbn. split.
  - destruct (fst v a) as [((m, e), u)|] eqn:F; cbn; [|easy]. destruct (Nat.eqb_spec e 0) as [|N]; [destruct u; easy|]. intros [= -> ->]. split; auto. now rewrite (Ty _ _ _ _ F N).
  - intros (N & ->). cbn. apply Nat.eqb_neq in N. now rewrite N.
Qed.
Lemma is_checked v a : tidy v -> checked (toW v) a -> exists n c, fst v a = Some (n, c, false).
Proof.
  intros Ty (x & H & N). unfold it in H. cbn in H. destruct (fst v a) as [((n, c), u)|] eqn:F; [|easy]. exists n, c. destruct u; auto. cbn in H. destruct (Nat.eqb_spec c 0) as [|Nc].
  - injection H as <-. now destruct (N n).
  - discriminate (Ty _ _ _ _ F Nc).
Qed.
Lemma is_alive v a : alive (toW v) a -> exists n c u, fst v a = Some (n, c, u).
Proof. unfold alive. cbn. destruct (fst v a) as [((n, c), u)|]; [eauto|easy]. Qed.
Lemma is_fresh v a : fresh (toW v) a -> a <> 0 /\ fst v a = None.
Proof. unfold fresh. cbn. now destruct (fst v a). Qed.
Lemma has_index v c : exists_index (toW v) c -> exists h l, snd v c = Some (h, l).
Proof. unfold exists_index. cbn. destruct (snd v c) as [(h, l)|]; [eauto|easy]. Qed.
Lemma tidy_set v a n c u : tidy v -> (c <> 0 -> u = false) -> tidy (vset v a (n, c, u)).
Proof. intros Ty H b m e u'. cbn. unfold upd. destruct (Nat.eqb_spec b a) as [->|]; [intros [= <- <- <-]; auto|apply Ty]. Qed.
Lemma tidy_del v a : tidy v -> tidy (vdel v a).
Proof. intros Ty b m e u'. cbn. unfold upd. destruct (Nat.eqb_spec b a) as [->|]; [discriminate|apply Ty]. Qed.
Lemma weq_refl w : weq w w.
Proof. now split. Qed.
Lemma weq_set v a n c u : weq (toW (vset v a (n, c, u))) (set (toW v) a (Some (iterA (n, c, u)))).
Proof. split; intros b; auto. cbn. unfold upd. destruct (b =? a); auto. Qed.
Lemma weq_del v a : weq (toW (vdel v a)) (set (toW v) a None).
Proof. split; intros b; auto. cbn. unfold upd. destruct (b =? a); auto. Qed.
Lemma pos_place v c h l n : snd v c = Some (h, l) -> In n (l ++ [h]) -> pos (toW v) c (place n (l ++ [h])) n.
Proof. intros Hc J. exists h, l. split; auto. now apply place_nth. Qed.
Lemma pos_is v c h l i n : NoDup (l ++ [h]) -> snd v c = Some (h, l) -> pos (toW v) c i n -> place n (l ++ [h]) = i.
Proof. intros ND Hc (h' & l' & Hc' & E). cbn in Hc'. rewrite Hc in Hc'. injection Hc' as <- <-. now apply nth_place. Qed.
Lemma pos_in v c h l i n : snd v c = Some (h, l) -> pos (toW v) c i n -> nth_error (l ++ [h]) i = Some n.
Proof. intros Hc (h' & l' & Hc' & E). cbn in Hc'. rewrite Hc in Hc'. now injection Hc' as <- <-. Qed.
Lemma el_in v c h l n : snd v c = Some (h, l) -> element (toW v) c n -> In n l.
Proof. intros Hc (h' & l' & Hc' & E). cbn in Hc'. rewrite Hc in Hc'. now injection Hc' as <- <-. Qed.
Lemma T_ans {A} (f : A -> answer) m v (Q : answer -> abs -> Prop) E : T m v (fun x w => Q (f x) w) E -> T (ans f m) v Q E.
Proof. intros H. apply T_bind. eapply T_conseq; [exact H| |auto]. cbn. intros x w K. now apply T_ret. Qed.
Lemma tidy_moved v p k : tidy v -> (forall n c, p n c <> 0 -> c <> 0) -> tidy (vmap v p, k).
Proof. intros Ty H a n c u. cbn. unfold vmap. destruct (fst v a) as [((m, e), u')|] eqn:F; [|easy]. intros [= <- <- <-] N. eapply Ty; eauto. Qed.
Lemma weq_moved v c d p k : tidy v -> c <> 0 -> weq (toW (vmap v (out_of c d p), k)) (W (iters (each (toW v) (hit c p (fun m => if d =? 0 then Gone else At d m)))) k).
Proof.
  intros Ty N. split; intros a; auto. cbn. unfold vmap. destruct (fst v a) as [((m, e), u)|] eqn:F; auto. cbn. unfold out_of. destruct (Nat.eqb_spec e 0) as [->|Ne].
  - assert (X : (0 =? c) = false) by (apply Nat.eqb_neq; auto). rewrite X. cbn. destruct u; reflexivity.
  - rewrite (Ty _ _ _ _ F Ne). cbn [hit]. destruct ((e =? c) && p m)%bool; [now destruct (d =? 0)|]. apply Nat.eqb_neq in Ne. now rewrite Ne.
Qed.
Lemma remove_mid n p q : NoDup (p ++ n :: q) -> remove Nat.eq_dec n (p ++ n :: q) = p ++ q.
Proof.
  intros ND. apply NoDup_remove_2 in ND. rewrite remove_app. cbn. destruct (Nat.eq_dec n n); [|easy]. rewrite !notin_remove; auto; intros J; apply ND, in_app_iff; auto.
Qed.
Lemma NoDup_front (h : node) l : NoDup (l ++ [h]) -> NoDup l.
Proof. intros H. apply NoDup_remove_1 in H. now rewrite app_nil_r in H. Qed.

Section Sim.
Variable local : list nat -> nat.
Hypothesis local_ok : forall l, ~ In (local l) (0 :: l).
Variable v : abs.
Hypothesis V0 : snd v 0 = None.
Hypothesis S : sound v.
Definition done (o : op) (r : answer) (v' : abs) : Prop := correct o (toW v) /\ (exists w, effect o (toW v) r w /\ weq (toW v') w) /\ tidy v'.
Definition failed (o : op) (v' : abs) : Prop := ~ correct o (toW v) /\ v' = v.
Lemma Ty : tidy v.
Proof. intros a n c u H N. apply (s_it S _ H N). Qed.
Hint Resolve Ty weq_refl : core.
Notation sim o := (allowed o (toW v) -> T (run local o) v (done o) (failed o)).
Lemma nz c h l : snd v c = Some (h, l) -> c <> 0.
Proof. intros H ->. congruence. Qed.
Lemma at_in a n c u : fst v a = Some (n, c, u) -> c <> 0 -> forall h l, snd v c = Some (h, l) -> In n (l ++ [h]).
Proof. intros F N h l Hc. destruct (s_it S _ F N) as (_ & h' & l' & Hc' & J). congruence. Qed.
Lemma own a n c u : fst v a = Some (n, c, u) -> c = 0 \/ snd v c <> None.
Proof. intros F. now apply (own_ok S _ F). Qed.

Lemma sim_new a : sim (INew a).
Proof.
  intros (Na & Fa)%is_fresh. apply T_ans, T_make; auto. split; [exact I|]. split; [|apply tidy_set; auto]. eexists. split; [split; reflexivity|]. apply weq_set.
Qed.
Lemma sim_make a c n : sim (IMake a c n).
Proof.
  intros ((Na & Fa)%is_fresh & i & h & l & Hc & J). cbn in Hc. apply T_ans, T_make; auto. { right. congruence. } split; [exact I|]. split; [|apply tidy_set; auto]. eexists. split; [split; reflexivity|].
  assert (N := nz Hc). apply Nat.eqb_neq in N. assert (X := weq_set v a n c false). cbn in X. now rewrite N in X.
Qed.
Lemma sim_copy a b : sim (ICopy a b).
Proof.
  intros ((Na & Fa)%is_fresh & (n & c & u & Fb)%is_alive). apply T_ans. eapply T_copy; eauto. { eapply own; eauto. } split; [exact I|]. split; [|apply tidy_set; eauto; intros; eapply Ty; eauto].
  eexists. split; [split; reflexivity|]. cbn. rewrite Fb. apply weq_set.
Qed.
Lemma sim_assign a b : sim (IAssign a b).
Proof.
  intros ((m & e & u' & Fa)%is_alive & (n & c & u & Fb)%is_alive). apply T_ans. eapply T_assign; eauto. { eapply own; eauto. } unfold ok1. cbn [fst snd].
  assert (X : it (toW v) b (iterA (n, c, u))) by (unfold it; cbn; now rewrite Fb).
  destruct (Nat.eqb_spec c 0) as [->|N]; [destruct u|]; cbn [negb orb].
  - split; [cbn; unfold it in *; rewrite X; discriminate|]. split; [|apply tidy_set; auto; easy]. eexists. split; [split; reflexivity|]. cbn. rewrite Fb. apply weq_set.
  - split; auto.
  - split. { cbn. unfold it in *. rewrite X. cbn. apply Nat.eqb_neq in N. rewrite N. discriminate. }
    split; [|apply tidy_set; eauto; intros; eapply Ty; eauto]. eexists. split; [split; reflexivity|]. cbn. rewrite Fb. apply weq_set.
Qed.
Lemma sim_destroy a : sim (IDestroy a).
Proof.
  intros (n & c & u & Fa)%is_alive. apply T_ans. eapply T_destroy; eauto. split; [exact I|]. split; [|apply tidy_del; auto]. eexists. split; [split; reflexivity|]. apply weq_del.
Qed.
Lemma sim_restore a n : sim (IRestore a n).
Proof.
  intros (m & c & u & Fa)%is_alive. apply T_ext, T_ans, T_bind. eapply T_set_node; eauto. apply T_bind. eapply T_detach. { cbn. rewrite upd_eq. reflexivity. }
  eapply T_set_unchecked. { cbn. rewrite upd_eq. reflexivity. } exists (vset v a (n, 0, true)). split; [eqv|].
  split; [exact I|]. split; [|apply tidy_set; auto; easy]. eexists. split; [split; reflexivity|]. apply weq_set.
Qed.
Lemma not_at a n : fst v a = Some (n, 0, false) -> forall c m, ~ it (toW v) a (At c m).
Proof. intros F c m (N & G)%it_at; auto. congruence. Qed.
Lemma at_end a n c h l : fst v a = Some (n, c, false) -> snd v c = Some (h, l) -> n = h -> ~ exists c n, it (toW v) a (At c n) /\ element (toW v) c n.
Proof.
  intros F Hc -> (c' & m & (N & G)%it_at & H); auto. rewrite F in G. injection G as <- <-. apply (el_in Hc) in H. assert (ND := s_nd S _ Hc).
  apply NoDup_remove_2 in ND. now rewrite app_nil_r in ND.
Qed.
Lemma sim_deref a : sim (IDeref a).
Proof.
  intros (n & c & Fa)%is_checked; auto. apply T_ans. eapply T_dereference; eauto.
  - intros ->. split; auto. intros (c & m & H & _). revert H. eapply not_at; eauto.
  - intros h l N Hc. destruct (Nat.eqb_spec n h) as [E|Nh].
    + split; auto. eapply at_end; eauto.
    + intros J. assert (A : it (toW v) a (At c n)) by (apply it_at; auto). split; [|split; auto].
      * exists c, n. split; auto. exists h, l. auto.
      * exists (toW v). split; auto. split; auto. eauto.
Qed.
Lemma sim_incr a : sim (IIncr a).
Proof.
  intros (n & c & Fa)%is_checked; auto. apply T_ans. eapply T_increment; eauto.
  - intros ->. split; auto. intros (c & m & H & _). revert H. eapply not_at; eauto.
  - intros h l N Hc. destruct (Nat.eqb_spec n h) as [E|Nh].
    + split; auto. eapply at_end; eauto.
    + intros m Hm. assert (A : it (toW v) a (At c n)) by (apply it_at; auto). assert (J := at_in _ Fa N Hc). split; [|split].
      * exists c, n. split; auto. exists h, l. split; auto. apply in_app_iff in J as [J|[J|[]]]; auto. now destruct Nh.
      * eexists. split; [split; [reflexivity|]|apply weq_set]. exists c, (place n (l ++ [h])), n, m. split; auto. split; [now apply pos_place|]. split; [now exists h, l|].
        cbn. apply Nat.eqb_neq in N. now rewrite N.
      * apply tidy_set; auto.
Qed.
Lemma sim_decr a : sim (IDecr a).
Proof.
  intros (n & c & Fa)%is_checked; auto. apply T_ans. eapply T_decrement; eauto.
  - intros ->. split; auto. intros (c & m & i & H & _). revert H. eapply not_at; eauto.
  - intros h l N Hc. assert (J := at_in _ Fa N Hc). assert (ND := s_nd S _ Hc). destruct (place n (l ++ [h])) as [|p] eqn:Ep.
    + split; auto. intros (c' & m & i & (N' & G)%it_at & H); auto. rewrite Fa in G. injection G as <- <-. apply (pos_is ND Hc) in H. congruence.
    + intros m Hm. assert (A : it (toW v) a (At c n)) by (apply it_at; auto). assert (Pp := @pos_place v c h l n Hc J). rewrite Ep in Pp. split; [|split].
      * exists c, n, p. auto.
      * eexists. split; [split; [reflexivity|]|apply weq_set]. exists c, p, n, m. split; auto. split; auto. split; [now exists h, l|].
        cbn. apply Nat.eqb_neq in N. now rewrite N.
      * apply tidy_set; auto.
Qed.
Lemma sim_advance a z : sim (IAdvance a z).
Proof.
  intros (n & c & Fa)%is_checked; auto. apply T_ans. eapply T_advance; eauto.
  - intros ->. split; auto. intros (c & m & i & j & m' & H & _). revert H. eapply not_at; eauto.
  - intros h l N Hc. assert (J := at_in _ Fa N Hc). assert (ND := s_nd S _ Hc). unfold goes. cbv zeta.
    destruct (Z.ltb_spec (Z.of_nat (place n (l ++ [h])) + z) 0) as [L|L]; [|destruct (nth_error _ _) as [m|] eqn:Em].
    + split; auto. intros (c' & m & i & j & m' & (N' & G)%it_at & H & H' & Hj); auto. rewrite Fa in G. injection G as <- <-. apply (pos_is ND Hc) in H. lia.
    + assert (A : it (toW v) a (At c n)) by (apply it_at; auto). assert (Pp := @pos_place v c h l n Hc J).
      assert (Pm : pos (toW v) c (Z.to_nat (Z.of_nat (place n (l ++ [h])) + z)) m) by (now exists h, l). split; [|split].
      * exists c, n, (place n (l ++ [h])), (Z.to_nat (Z.of_nat (place n (l ++ [h])) + z)), m. splits; auto. lia.
      * eexists. split; [split; [reflexivity|]|apply weq_set]. exists c, (place n (l ++ [h])), (Z.to_nat (Z.of_nat (place n (l ++ [h])) + z)), n, m. splits; auto; [lia|].
        cbn. apply Nat.eqb_neq in N. now rewrite N.
      * apply tidy_set; auto.
    + split; auto. intros (c' & m & i & j & m' & (N' & G)%it_at & H & H' & Hj); auto. rewrite Fa in G. injection G as <- <-. apply (pos_is ND Hc) in H. apply (pos_in Hc) in H'.
      rewrite H, <- Hj, Nat2Z.id in Em. congruence.
Qed.
Lemma sim_equal a b : sim (IEqual a b).
Proof.
  intros ((n & c & u & Fa)%is_alive & (m & e & u' & Fb)%is_alive). apply T_ans. eapply T_equal; eauto. unfold ok1, ok2. cbn [fst snd].
  assert (A : it (toW v) a (iterA (n, c, u))) by (unfold it; cbn; now rewrite Fa). assert (B : it (toW v) b (iterA (m, e, u'))) by (unfold it; cbn; now rewrite Fb).
  match goal with |- if ?x then _ else _ => destruct x eqn:Eb end.
  - assert (exists k k', node_of (iterA (n, c, u)) = Some n /\ node_of (iterA (m, e, u')) = Some m /\ comparable (iterA (n, c, u)) (iterA (m, e, u')) /\ k = 0 /\ k' = 0) as (_ & _ & X & Y & Co & _ & _).
    { exists 0, 0. cbn. destruct (Nat.eqb_spec c 0), u, (Nat.eqb_spec e 0), u'; cbn in *; try discriminate; splits; auto; destruct (Nat.eqb_spec c e); try discriminate; auto.
      all: exfalso; assert (T1 := Ty _ Fa); assert (T2 := Ty _ Fb); intuition discriminate. }
    split; [|split; auto].
    + eexists _, _. eauto.
    + exists (toW v). split; auto. split; auto. eexists _, _, _. split; [exact A|]. split; [exact B|]. split; [reflexivity|]. rewrite X, Y, Nat.eqb_eq. split; congruence.
  - split; auto. intros (x & y & A' & B' & Co). unfold it in *. assert (x = iterA (n, c, u)) as -> by congruence. assert (y = iterA (m, e, u')) as -> by congruence.
    cbn in Co. destruct (Nat.eqb_spec c 0), u, (Nat.eqb_spec e 0), u'; cbn in *; try discriminate; try easy; destruct (Nat.eqb_spec c e); try discriminate; auto.
Qed.
Lemma same_own_iff c e : same_own c e = true <-> c <> 0 /\ c = e.
Proof. unfold same_own. destruct (Nat.eqb_spec c 0), (Nat.eqb_spec e 0), (Nat.eqb_spec c e); cbn; intuition congruence. Qed.
Lemma sim_distance a b : sim (IDistance a b).
Proof.
  intros ((n & c & Fa)%is_checked & (m & e & Fb)%is_checked); auto. apply T_ans. eapply T_distance; eauto. destruct (same_own c e) eqn:So.
  - apply same_own_iff in So as (N & <-). destruct (s_it S _ Fa N) as (_ & h & l & Hc & J). assert (J' := at_in _ Fb N Hc).
    assert (A : it (toW v) a (At c n)) by (apply it_at; auto). assert (B : it (toW v) b (At c m)) by (apply it_at; auto).
    exists h, l. split; auto. split; [|split; auto].
    + exists c, n, m. auto.
    + exists (toW v). split; auto. split; auto. exists c, n, m, (place n (l ++ [h])), (place m (l ++ [h])). splits; auto; now apply pos_place.
  - split; auto. intros (c' & n' & m' & (N & A)%it_at & (_ & B)%it_at); auto. enough (same_own c e = true) by congruence. apply same_own_iff. split; congruence.
Qed.
Lemma sim_owner a c : sim (IOwner a c).
Proof.
  intros ((n & e & u & Fa)%is_alive & (h & l & Hc)%has_index). apply T_ans, T_check. eapply T_is_owner; eauto; [congruence|].
  assert (A : it (toW v) a (iterA (n, e, u))) by (unfold it; cbn; now rewrite Fa). cbn in A.
  destruct (Nat.eqb_spec e 0) as [->|N]; cbn [negb andb orb].
  - destruct u.
    + split; [|split; auto]. { right. eauto. } exists (toW v). now split.
    + split; auto. intros [(m & H)|(m & H)]; unfold it in *; congruence.
  - rewrite (Ty _ Fa N), orb_false_r. destruct (Nat.eqb_spec e c) as [->|Nec].
    + split; [|split; auto]. { left. eauto. } exists (toW v). now split.
    + split; auto. intros [(m & H)|(m & H)]; unfold it in *; congruence.
Qed.
Lemma sim_belongs a c : sim (IBelongs a c).
Proof.
  intros ((n & e & u & Fa)%is_alive & (h & l & Hc)%has_index). assert (A : it (toW v) a (iterA (n, e, u))) by (unfold it; cbn; now rewrite Fa). cbn in A.
  apply T_ans, T_check. eapply T_belongs; eauto. { eapply own; eauto. }
  - intros ->. cbn in A. destruct u.
    + split; [|split; auto]. { left. eauto. } exists (toW v). now split.
    + split; auto. intros [(m & H)|(d & m & h' & l1 & l2 & H & _)]; unfold it in *; congruence.
  - intros h' l' N He. apply Nat.eqb_neq in N as Nb. rewrite Nb in A. rewrite (Ty _ Fa N), orb_false_r. destruct (Nat.eqb_spec h' h) as [->|Nh].
    + split; [|split; auto]. { right. exists e, n, h, l', l. auto. } exists (toW v). now split.
    + split; auto. intros [(m & H)|(d & m & h1 & l1 & l2 & H & H1 & H2)]; unfold it in *; [congruence|]. cbn in H1, H2. assert (d = e) as -> by congruence. congruence.
Qed.
Lemma sim_range a b : sim (IRange a b).
Proof.
  intros ((n & c & Fa)%is_checked & (m & e & Fb)%is_checked); auto. apply T_ans, T_check. eapply T_valid_range; eauto.
  - intros So. split; auto. intros (c' & n' & m' & i & j & (N & A)%it_at & (_ & B)%it_at & _); auto. enough (same_own c e = true) by congruence. apply same_own_iff. split; congruence.
  - intros h l (N & <-)%same_own_iff Hc. assert (J := at_in _ Fa N Hc). assert (J' := at_in _ Fb N Hc). assert (ND := s_nd S _ Hc).
    assert (A : it (toW v) a (At c n)) by (apply it_at; auto). assert (B : it (toW v) b (At c m)) by (apply it_at; auto).
    destruct (Nat.leb_spec (place n (l ++ [h])) (place m (l ++ [h]))) as [L|L].
    + split; [|split; auto]. { exists c, n, m, (place n (l ++ [h])), (place m (l ++ [h])). splits; auto; now apply pos_place. } exists (toW v). now split.
    + split; auto. intros (c' & n' & m' & i & j & A' & B' & H & H' & L'). unfold it in *. assert (c' = c /\ n' = n /\ m' = m) as (-> & -> & ->) by (splits; congruence).
      apply (pos_is ND Hc) in H, H'. lia.
Qed.
Lemma sim_outside p a b : sim (IOutside p a b).
Proof.
  intros ((q & e & Fp)%is_checked & (n & c & Fa)%is_checked & (m & e' & Fb)%is_checked); auto. apply T_ans, T_check. eapply T_outside_range; eauto.
  - intros So. split; auto. intros (c' & n' & m' & i & j & (N & A)%it_at & (_ & B)%it_at & _); auto. enough (same_own c e' = true) by congruence. apply same_own_iff. split; congruence.
  - intros h l (N & <-)%same_own_iff Hc (_ & <-)%same_own_iff. assert (J := at_in _ Fa N Hc). assert (J' := at_in _ Fb N Hc). assert (J2 := at_in _ Fp N Hc). assert (ND := s_nd S _ Hc).
    assert (A : it (toW v) a (At c n)) by (apply it_at; auto). assert (B : it (toW v) b (At c m)) by (apply it_at; auto). assert (C : it (toW v) p (At c q)) by (apply it_at; auto).
    destruct (clear_of _ _ _ false) eqn:Ec; unfold clear_of in Ec; cbn [orb] in Ec.
    + apply andb_prop in Ec as (L %Nat.leb_le & Ec). split; [|split; auto; exists (toW v); now split].
      exists c, n, m, (place n (l ++ [h])), (place m (l ++ [h])). splits; auto; try now apply pos_place. intros _. exists q, (place q (l ++ [h])). splits; auto; [now apply pos_place|].
      intros (L1 & L2). apply Nat.leb_le in L1. apply Nat.ltb_lt in L2. rewrite L1, L2 in Ec. discriminate.
    + split; auto. intros (c' & n' & m' & i & j & A' & B' & H & H' & L' & K). unfold it in *. assert (c' = c /\ n' = n /\ m' = m) as (-> & -> & ->) by (splits; congruence).
      apply (pos_is ND Hc) in H, H'. subst i j. apply Nat.leb_le in L' as L2. rewrite L2 in Ec. cbn in Ec. apply Bool.negb_false_iff, andb_prop in Ec as (E1 %Nat.leb_le & E2 %Nat.ltb_lt).
      destruct K as (q' & k & Q1 & Q2 & Q3); [lia|]. assert (q' = q) as -> by congruence. apply (pos_is ND Hc) in Q2. lia.
  - intros (N & <-)%same_own_iff Se. destruct (s_it S _ Fa N) as (_ & h & l & Hc & J). assert (J' := at_in _ Fb N Hc). assert (ND := s_nd S _ Hc).
    assert (A : it (toW v) a (At c n)) by (apply it_at; auto). assert (B : it (toW v) b (At c m)) by (apply it_at; auto). destruct (Nat.eqb_spec n m) as [->|Nnm].
    + split; [|split; auto; exists (toW v); now split]. exists c, m, m, (place m (l ++ [h])), (place m (l ++ [h])). splits; auto; try now apply pos_place. intros X. lia.
    + assert (X : ~ correct (IOutside p a b) (toW v)); [|split; (split; [exact X|]); auto].
      intros (c' & n' & m' & i & j & A' & B' & H & H' & L' & K). unfold it in A, B, A', B'. assert (c' = c /\ n' = n /\ m' = m) as (-> & -> & ->) by (splits; congruence).
      apply (pos_is ND Hc) in H, H'. destruct K as (q' & k & (_ & Q1)%it_at & _); auto.
      * assert (i <> j); [|lia]. subst. intros Y. apply Nnm. eapply place_inj; eauto.
      * enough (same_own c e = true) by congruence. apply same_own_iff. split; congruence.
Qed.
Lemma sim_outside2 p a b : sim (IOutside2 p a b).
Proof.
  intros ((q & e & Fp)%is_checked & (n & c & Fa)%is_checked & (m & c' & Fb)%is_checked); auto. apply T_ans, T_check.
  assert (Ok : correct (IOutside2 p a b) (toW v) -> correct (IOutside2 p a b) (toW v) /\ (exists w', effect (IOutside2 p a b) (toW v) RU w' /\ weq (toW v) w') /\ tidy v).
  { intros H. split; auto. split; auto. exists (toW v). now split. }
  eapply T_outside_range2; eauto.
  - intros ->. apply Ok. intros d q' c1 n1 (N & H)%it_at; auto. congruence.
  - intros l N He. apply Ok. intros d q' c1 n1 (_ & H)%it_at (h' & l' & Hd & J); auto. assert (d = e /\ q' = q) as (-> & ->) by (split; congruence).
    cbn in Hd. assert (h' = q /\ l' = l) as (-> & ->) by (split; congruence). assert (ND := s_nd S _ He). apply NoDup_remove_2 in ND. rewrite app_nil_r in ND. easy.
  - intros ->. apply Ok. intros d q' c1 n1 _ _ (N & H)%it_at; auto. congruence.
  - intros he le h l Ne He Nq N Hc. assert (J := at_in _ Fa N Hc). assert (Jq := at_in _ Fp Ne He). assert (ND := s_nd S _ Hc).
    assert (A : it (toW v) a (At c n)) by (apply it_at; auto). assert (C : it (toW v) p (At e q)) by (apply it_at; auto).
    assert (Eq : element (toW v) e q). { exists he, le. split; auto. apply in_app_iff in Jq as [|[|[]]]; [auto|congruence]. }
    destruct (Nat.eqb_spec c c') as [<-|Nc].
    + assert (J' := at_in _ Fb N Hc). assert (B : it (toW v) b (At c m)) by (apply it_at; auto).
      destruct (clear_of _ _ _ false) eqn:Ec; unfold clear_of in Ec; cbn [orb] in Ec.
      * apply andb_prop in Ec as (L %Nat.leb_le & Ec). apply Ok. intros d q' c1 n1 H1 _ H2. unfold it in *. assert (c1 = c /\ n1 = n /\ q' = q) as (-> & -> & ->) by (splits; congruence).
        exists m, (place n (l ++ [h])), (place m (l ++ [h])). splits; auto; try now apply pos_place. intros k (L1 & L2) Hk. apply (pos_is ND Hc) in Hk. subst k.
        apply Nat.leb_le in L1. apply Nat.ltb_lt in L2. rewrite L1, L2 in Ec. discriminate.
      * split; auto. intros K. destruct (K e q c n C Eq A) as (m' & i & j & B' & H & H' & L' & K'). unfold it in *. assert (m' = m) as -> by congruence.
        apply (pos_is ND Hc) in H, H'. subst i j. apply Nat.leb_le in L' as L2. rewrite L2 in Ec. cbn in Ec. apply Bool.negb_false_iff, andb_prop in Ec as (E1 %Nat.leb_le & E2 %Nat.ltb_lt).
        apply (K' (place q (l ++ [h]))); auto. apply pos_place; auto.
        assert (X := place_lt _ _ J'). apply nth_error_In with (n := place q (l ++ [h])). assert (Lq : place q (l ++ [h]) < length (l ++ [h])) by lia.
        clear - Lq. revert Lq. generalize (l ++ [h]). intros l0. induction l0 as [|x l0 IH]; cbn; [lia|]. destruct (Nat.eqb_spec x q) as [->|]; [auto|]. intros L. apply IH. lia.
    + split; auto. intros K. destruct (K e q c n C Eq A) as (m' & i & j & (_ & B')%it_at & _); auto. congruence.
Qed.
Lemma nd c h l : snd v c = Some (h, l) -> NoDup l.
Proof. intros Hc. eapply NoDup_front, (s_nd S _ Hc). Qed.
Lemma weq_put u w c k : weq (toW u) w -> weq (toW (cset u c k)) (put w c (Some k)).
Proof. intros (A & B). split; intros b; [apply A|]. cbn. unfold upd. destruct (b =? c); [reflexivity|apply B]. Qed.
Lemma weq_out c d p p' y : c <> 0 -> (forall m : node, p m = p' m) -> (forall m, y m = if d =? 0 then Gone else At d m) ->
  weq (toW (moved v (out_of c d p))) (each (toW v) (hit c p' y)).
Proof.
  intros N Hp Hy. destruct (@weq_moved v c d p (snd v) Ty N) as (A & B). split; intros a; [|apply B]. cbn in *. rewrite A. destruct (option_map iterA (fst v a)) as [x|]; cbn; auto.
  destruct x as [| |e m]; cbn; auto. rewrite Hp, Hy. reflexivity.
Qed.
Lemma tidy_out c d p : c <> 0 -> tidy (moved v (out_of c d p)).
Proof. intros N. apply tidy_moved; auto. intros n e. unfold out_of. destruct (Nat.eqb_spec e c) as [->|]; cbn; auto. Qed.
Lemma tidy_cset u c k : tidy u -> tidy (cset u c k).
Proof. auto. Qed.
Lemma insert_split {A} i (n : A) l : exists p q, l = p ++ q /\ length p = Nat.min i (length l) /\ insert_at i n l = p ++ n :: q.
Proof. exists (firstn i l), (skipn i l). rewrite firstn_skipn, firstn_length. auto. Qed.

Lemma sim_cnew c h : sim (CNew c h).
Proof.
  intros (N & Hc). apply T_ans, T_new_index; auto. split; [exact I|]. split; [|now apply tidy_cset]. eexists. split; [split; reflexivity|]. apply weq_put; auto.
Qed.
Lemma sim_insert c i n : sim (CInsert c i n).
Proof.
  intros ((h & l & Hc)%has_index & Nn). apply T_ans. eapply T_insert; eauto. split; [exact I|]. split; [|now apply tidy_cset].
  destruct (insert_split i n l) as (p & q & -> & L & ->). eexists. split; [split; [reflexivity|]|apply weq_put; auto]. exists h, p, q. auto.
Qed.
Lemma sim_extract c n : sim (CExtract c n).
Proof.
  intros (h & l & Hc & J). cbn in Hc. assert (N := nz Hc). assert (ND := nd _ Hc). apply in_split in J as (p & q & ->). apply T_ans. eapply T_extract; eauto.
  rewrite remove_mid by auto. split; [exact I|]. split; [|apply tidy_cset; now apply tidy_out]. eexists. split; [split; [reflexivity|]|].
  - exists h, p, q. split; [exact Hc|reflexivity].
  - apply weq_put, weq_out; auto. intros m. apply Nat.eqb_sym.
Qed.
Lemma sim_transfer c d i same n : sim (CTransfer c d i same n).
Proof.
  intros (Ncd & (h & l & Hc & J) & (h' & l' & Hd)%has_index & Nn). cbn in Hc. assert (N := nz Hc). assert (N' := nz Hd). assert (ND := nd _ Hc). apply in_split in J as (p & q & ->). apply T_ans. eapply T_transfer; eauto.
  rewrite remove_mid by auto. destruct (insert_split i n l') as (p' & q' & El & L & Ei). enough (K : forall k, k = p' ++ n :: q' -> done (CTransfer c d i same n) RU (cset (cset (moved v (out_of c (if same then d else 0) (fun m : node => m =? n))) d (h', k)) c (h, p ++ q))) by exact (K _ Ei).
  clear Ei. subst l'. intros k ->.  split; [exact I|]. split; [|apply tidy_cset, tidy_cset; now apply tidy_out].
  eexists. split; [split; [reflexivity|]|].
  - exists h, p, q, h', p', q'. split; [exact Hc|]. split; [exact Hd|]. split; [exact L|reflexivity].
  - apply weq_put, weq_put, weq_out; auto; intros m; [apply Nat.eqb_sym|]. destruct same; auto. apply Nat.eqb_neq in N'. now rewrite N'.
Qed.
Lemma sim_reorder c l : sim (CReorder c l).
Proof.
  intros (h & l0 & Hc & _). cbn in Hc. apply T_ans. eapply T_set_elts; eauto. split; [exact I|]. split; [|now apply tidy_cset]. eexists. split; [split; [reflexivity|]|apply weq_put; auto].
  exists h, l0. auto.
Qed.
Lemma sim_clear c : sim (CClear c).
Proof.
  intros (h & l & Hc)%has_index. assert (N := nz Hc). apply T_ans. eapply T_clear; eauto. split; [exact I|]. split; [|apply tidy_cset; now apply tidy_out]. eexists. split; [split; [reflexivity|]|].
  - exists h, l. split; [exact Hc|reflexivity].
  - apply weq_put, weq_out; auto.
Qed.
Lemma sim_swap c d : sim (CSwap c d).
Proof.
  intros ((h & l & Hc)%has_index & (h' & l' & Hd)%has_index). assert (N := nz Hc). assert (N' := nz Hd). apply T_ans. apply T_swap; try congruence. split; [exact I|].
  assert (Z : forall e, sw c d e = 0 <-> e = 0) by (intros e; unfold sw; destruct (Nat.eqb_spec e c), (Nat.eqb_spec e d); intuition congruence).
  split; [|apply tidy_moved; auto; intros _ e; rewrite Z; auto]. eexists. split; [split; reflexivity|]. split; intros b; auto. cbn. unfold vmap.
  destruct (fst v b) as [((n, e), u)|]; auto. cbn. destruct (Nat.eqb_spec e 0) as [->|Ne].
  - assert (E0 := proj2 (Z 0) eq_refl). rewrite E0. cbn. now destruct u.
  - assert (E0 : sw c d e <> 0) by (rewrite Z; auto). apply Nat.eqb_neq in E0. now rewrite E0.
Qed.
Lemma sim_cdestroy c : sim (CDestroy c).
Proof.
  intros (h & l & Hc)%has_index. assert (N := nz Hc). apply T_ans. eapply T_destroy_index; eauto. split; [exact I|].
  split; [|apply tidy_moved; auto; intros _ e; destruct (Nat.eqb_spec e c); [easy|auto]]. eexists. split; [split; reflexivity|].
  destruct (@weq_moved v c 0 (fun _ => true) (snd v) Ty N) as (A & _). split; intros a; auto. cbn in *. rewrite <- A. unfold vmap, out_of. destruct (fst v a) as [((n, e), u)|]; auto.
  now rewrite andb_true_r.
Qed.
Lemma next_of (n h : node) p q m : NoDup ((p ++ n :: q) ++ [h]) -> nth_error ((p ++ n :: q) ++ [h]) (Datatypes.S (place n ((p ++ n :: q) ++ [h]))) = Some m -> m = hd h q.
Proof.
  intros ND. assert (E : nth_error ((p ++ n :: q) ++ [h]) (length p) = Some n). { rewrite <- app_assoc, nth_error_app2, Nat.sub_diag; auto. }
  rewrite (nth_place ND _ E), <- app_assoc, nth_error_app2 by lia. replace (Datatypes.S (length p) - length p) with 1 by lia. cbn. destruct q; cbn; congruence.
Qed.
Lemma sim_erase c a r : sim (CErase c a r).
Proof.
  intros ((Nr & Fr)%is_fresh & (n & e & Fa)%is_checked & (h & l & Hc)%has_index); auto. assert (N := nz Hc). assert (Nar : a <> r) by congruence.
  apply T_ans. unfold erase. apply T_bind. eapply T_copy; eauto. { eapply own; eauto. } set (v1 := vset v r (n, e, false)).
  assert (F1 : fst v1 r = Some (n, e, false)) by (cbn; now rewrite upd_eq).
  assert (S1 : sound v1).
  { destruct (Nat.eq_dec e 0) as [->|Ne].
    - split; [|exact (s_nd S)]. intros b m d u. cbn. unfold upd. destruct (Nat.eqb_spec b r) as [->|]; [intros [= <- <- <-]; easy|apply (s_it S)].
    - destruct (s_it S _ Fa Ne) as (_ & h' & l' & He & J). eapply sound_set; eauto. }
  assert (Bad : (~ correct (CErase c a r) (toW v)) -> T (destroy r ;;; throw) v1 (fun x w => done (CErase c a r) ((fun _ : unit => RU) x) w) (failed (CErase c a r))).
  { intros X. apply T_bind. eapply T_destroy; eauto. apply T_ext, T_throw. exists v. split; [|split; auto]. now apply eqv_back. }
  assert (Cor : correct (CErase c a r) (toW v) <-> e = c /\ In n l).
  { split.
    - intros (m & (Ne & G)%it_at & El); auto. rewrite Fa in G. injection G as <- ->. split; auto. now apply (el_in Hc).
    - intros (-> & J). exists n. split; [apply it_at; auto|]. exists h, l. auto. }
  apply T_try. apply T_bind, T_check. eapply T_valid; eauto. unfold ok1. cbn [fst snd]. destruct (Nat.eqb_spec e 0) as [E0|Ne]; cbn [negb orb].
  { apply Bad. rewrite Cor. intros (-> & _). easy. }
  destruct (s_it S _ Fa Ne) as (_ & he & le & He & Je). apply T_bind, T_check. eapply (T_deref_check local local_ok S1 r); [exact F1|easy|].
  intros h' l' _ He'. assert (h' = he /\ l' = le) as (-> & ->) by (split; cbn in He'; congruence). destruct (Nat.eqb_spec n he) as [Eh|Nh]; cbn [negb].
  { apply Bad. rewrite Cor. intros (-> & J). assert (he = h /\ le = l) as (-> & ->) by (split; congruence). subst n. assert (ND := s_nd S _ Hc). apply NoDup_remove_2 in ND. now rewrite app_nil_r in ND. }
  apply T_bind, T_check. eapply T_is_owner; eauto. { cbn. congruence. } assert (X := proj2 (Nat.eqb_neq e 0) Ne). rewrite X, orb_false_r. cbn [negb andb]. destruct (Nat.eqb_spec e c) as [->|Nec].
  2: { apply Bad. rewrite Cor. easy. }
  assert (he = h /\ le = l) as (-> & ->) by (split; congruence).
  assert (J : In n l). { apply in_app_iff in Je as [Je|[Je|[]]]; auto. now destruct Nh. }
  assert (NDl := nd _ Hc). assert (ND := s_nd S _ Hc). assert (Cr := proj2 Cor (conj eq_refl J)). apply in_split in J as (p & q & ->).
  apply (T_scoped local local_ok) with (x := (n, c, false)). { intros t Nt Ft. eapply makes_copy; eauto. right. cbn. congruence. }
  intros t Nt Ft. assert (Ntr : t <> r) by congruence. assert (Ft0 : fst v t = None) by (cbn in Ft; now rewrite upd_neq in Ft).
  apply T_bind. eapply T_increment with (n := n) (c := c); eauto.
  { eapply sound_set; eauto. } { cbn. rewrite upd_neq, upd_eq by auto. reflexivity. } { easy. }
  intros h' l' _ Hc'. assert (h' = h /\ l' = p ++ n :: q) as (-> & ->) by (split; cbn in Hc'; congruence). destruct (Nat.eqb_spec n h) as [|_]; [easy|]. intros m Hm.
  assert (Em := @next_of n h p q m ND Hm). assert (Nmn : m <> n). { intros ->. assert (Y := nth_place ND _ Hm). lia. }
  apply T_bind. eapply T_load. { cbn. rewrite upd_neq, upd_eq by auto. reflexivity. } intros x -> _ _. eapply T_extract; eauto.
  split. { cbn. unfold vmap. cbn. rewrite (upd_neq _ _ Ntr), upd_eq. discriminate. }
  exists (cset (vset (moved v (out_of c 0 (fun m => m =? n))) r (m, c, false)) c (h, p ++ q)). split.
  - rewrite remove_mid by auto. split; intros b; auto. cbn. unfold upd, vmap, out_of. cbn. unfold upd. assert (Xm := proj2 (Nat.eqb_neq m n) Nmn).
    destruct (Nat.eqb_spec b t) as [->|Nbt]; [|destruct (Nat.eqb_spec b r) as [->|]; auto].
    + apply Nat.eqb_neq in Ntr. rewrite Ntr, Ft0. reflexivity.
    + rewrite Nat.eqb_refl, Xm. reflexivity.
  - split; [exact Cr|]. split; [|apply tidy_cset, tidy_set; auto; now apply tidy_out]. eexists. split; [split; [reflexivity|]|].
    + exists h, p, n, q. split; [apply it_at; auto|]. split; [exact Hc|reflexivity].
    + apply weq_put. destruct (@weq_out c 0 (fun m => m =? n) (Nat.eqb n) (fun _ => Gone) N) as (A & B); auto. { intros k. apply Nat.eqb_sym. }
      split; intros b; auto. cbn in *. unfold upd. rewrite <- Em. destruct (b =? r); cbn; auto. now rewrite X.
Qed.
Theorem sim_all o : sim o.
Proof.
  destruct o.
  - apply sim_new. - apply sim_make. - apply sim_copy. - apply sim_assign. - apply sim_destroy. - apply sim_restore. - apply sim_deref. - apply sim_incr. - apply sim_decr.
  - apply sim_advance. - apply sim_equal. - apply sim_distance. - apply sim_owner. - apply sim_range. - apply sim_outside. - apply sim_outside2. - apply sim_belongs. - apply sim_cnew. - apply sim_insert. - apply sim_extract. - apply sim_transfer.
  - apply sim_reorder. - apply sim_clear. - apply sim_swap. - apply sim_cdestroy. - apply sim_erase.
Qed.
End Sim.

(** ** what is reachable *)
Definition good (w : world) : Prop :=
  (forall a c n, it w a (At c n) -> exists h l, conts w c = Some (h, l) /\ In n (l ++ [h])) /\ forall c h l, conts w c = Some (h, l) -> NoDup (l ++ [h]).
Lemma good_weq w w' : weq w w' -> good w' -> good w.
Proof. intros (A & B) (G1 & G2). split; [intros a c n H|intros c h l H]; unfold it in *; rewrite ?A, ?B in *; eauto. Qed.
Lemma good_sound v : tidy v -> good (toW v) -> sound v.
Proof.
  intros Ty (G1 & G2). split; [|exact G2]. intros a n c u F N. assert (u = false) as -> by (eapply Ty; eauto). split; auto. apply (G1 a). apply it_at; auto.
Qed.
Lemma sound_good v : sound v -> good (toW v) /\ tidy v.
Proof.
  intros Sd. assert (Ty : tidy v) by (intros a n c u F N; apply (s_it Sd _ F N)). split; auto. split; [|exact (s_nd Sd)]. intros a c n (N & F)%it_at; auto. apply (s_it Sd _ F N).
Qed.
Lemma pos_In w c i n : pos w c i n -> exists h l, conts w c = Some (h, l) /\ In n (l ++ [h]).
Proof. intros (h & l & H & E). exists h, l. split; auto. eapply nth_error_In; eauto. Qed.
Lemma set_good w a x : good w -> (forall c n, x = Some (At c n) -> exists h l, conts w c = Some (h, l) /\ In n (l ++ [h])) -> good (set w a x).
Proof.
  intros (G1 & G2) H. split; [|exact G2]. intros b c n. unfold it. cbn. unfold upd. destruct (b =? a); [apply H|apply G1].
Qed.
Lemma each_hit w c p y k : good w -> (forall a e n, it w a (At e n) -> e = c -> p n = false -> match k with Some (h, l) => In n (l ++ [h]) | None => False end) ->
  (forall n, y n = Gone) -> (match k with Some (h, l) => NoDup (l ++ [h]) | None => True end) -> good (put (each w (hit c p y)) c k).
Proof.
  intros (G1 & G2) H Hy Hk. split.
  - intros a e n. unfold it. cbn. destruct (iters w a) as [x|] eqn:F; cbn; [|easy]. destruct x as [| |e' m]; cbn; try easy. destruct (Nat.eqb_spec e' c) as [->|N]; cbn.
    + destruct (p m) eqn:Pm; [rewrite Hy; easy|]. intros [= <- <-]. rewrite upd_eq. specialize (H a c m F eq_refl Pm). destruct k as [(h, l)|]; [|easy]. eauto.
    + intros [= <- <-]. rewrite upd_neq by auto. eapply G1; eauto.
  - intros e h l. cbn. unfold upd. destruct (Nat.eqb_spec e c) as [->|]; [|apply G2]. intros ->. exact Hk.
Qed.
Lemma mid_In (x n h : node) p q : In x ((p ++ n :: q) ++ [h]) <-> x = n \/ In x ((p ++ q) ++ [h]).
Proof. rewrite !in_app_iff. cbn. intuition. Qed.
Lemma mid_ND (n h : node) p q : NoDup ((p ++ n :: q) ++ [h]) <-> ~ In n ((p ++ q) ++ [h]) /\ NoDup ((p ++ q) ++ [h]).
Proof.
  rewrite <- !app_assoc. cbn. split.
  - intros H. split; [now apply NoDup_remove_2 in H|now apply NoDup_remove_1 in H].
  - intros (H1 & H2). apply NoDup_Add with (a := n) (l := p ++ q ++ [h]); auto. apply Add_app.
Qed.
Lemma effect_good o w r w' : good w -> allowed o w -> correct o w -> effect o w r w' -> good w'.
Proof.
  intros G Al Co Ef. assert (G' := G). destruct G' as (G1 & G2). destruct o; cbn in Al, Co, Ef.
  - destruct Ef as (_ & ->). apply set_good; auto. easy.
  - destruct Ef as (_ & ->). apply set_good; auto. intros ? ? [= <- <-]. destruct Al as (_ & i & Hp). eapply pos_In; eauto.
  - destruct Ef as (_ & ->). apply set_good; auto. intros. eapply G1; eauto.
  - destruct Ef as (_ & ->). apply set_good; auto. intros. eapply G1; eauto.
  - destruct Ef as (_ & ->). apply set_good; auto. easy.
  - destruct Ef as (_ & ->). apply set_good; auto. easy.
  - now destruct Ef as (-> & _).
  - destruct Ef as (_ & c & i & n & m & H1 & H2 & H3 & ->). apply set_good; auto. intros ? ? [= <- <-]. eapply pos_In; eauto.
  - destruct Ef as (_ & c & i & n & m & H1 & H2 & H3 & ->). apply set_good; auto. intros ? ? [= <- <-]. eapply pos_In; eauto.
  - destruct Ef as (_ & c & i & j & n & m & H1 & H2 & H3 & _ & ->). apply set_good; auto. intros ? ? [= <- <-]. eapply pos_In; eauto.
  - now destruct Ef as (-> & _).
  - now destruct Ef as (-> & _).
  - now destruct Ef as (_ & ->).
  - now destruct Ef as (_ & ->).
  - now destruct Ef as (_ & ->).
  - now destruct Ef as (_ & ->).
  - now destruct Ef as (_ & ->).
  - destruct Ef as (_ & ->), Al as (N & Hc). split.
    + intros a e n H. destruct (G1 a e n H) as (h' & l' & He & J). cbn. rewrite upd_neq by congruence. eauto.
    + intros e h' l'. cbn. unfold upd. destruct (e =? c); [|apply G2]. intros [= <- <-]. cbn. repeat constructor. easy.
  - destruct Ef as (_ & h & p & q & Hc & L & ->), Al as (_ & Nn). split.
    + intros a e m H. destruct (G1 a e m H) as (h' & l' & He & J). cbn. unfold upd. destruct (Nat.eqb_spec e c) as [->|]; eauto. assert (h' = h /\ l' = p ++ q) as (-> & ->) by (split; congruence).
      exists h, (p ++ n :: q). split; auto. apply mid_In. auto.
    + intros e h' l'. cbn. unfold upd. destruct (Nat.eqb_spec e c) as [->|]; [|apply G2]. intros [= <- <-]. apply mid_ND. split; [|now apply (G2 c)].
      intros J. apply In_nth_error in J as (i' & J). apply (Nn i'). exists h, (p ++ q). auto.
  - destruct Ef as (_ & h & p & q & Hc & ->). assert (ND := G2 _ _ _ Hc). apply mid_ND in ND as (Nn & ND). apply each_hit; auto. intros a e m H -> Pm.
    destruct (G1 a c m H) as (h' & l' & He & J). assert (h' = h /\ l' = p ++ n :: q) as (-> & ->) by (split; congruence). apply mid_In in J as [->|J]; auto. now rewrite Nat.eqb_refl in Pm.
  - destruct Ef as (_ & h & p & q & h' & p' & q' & Hc & Hd & L & ->), Al as (Ncd & _ & _ & Nn). assert (ND := G2 _ _ _ Hc). apply mid_ND in ND as (Nnc & ND). assert (ND' := G2 _ _ _ Hd). split.
    + intros a e m. unfold it. cbn. destruct (iters w a) as [x|] eqn:F; cbn; [|easy]. destruct x as [| |e' m']; cbn; try easy.
      destruct (Nat.eqb_spec e' c) as [->|Ne]; cbn; [destruct (Nat.eqb_spec n m') as [->|Nm]|].
      * destruct same; [|easy]. intros [= <- <-]. rewrite (upd_neq _ _ (not_eq_sym Ncd)), upd_eq. exists h', (p' ++ m' :: q'). split; auto. apply mid_In. auto.
      * intros [= <- <-]. rewrite upd_eq. exists h, (p ++ q). split; auto. destruct (G1 a c m' F) as (h1 & l1 & He & J). assert (h1 = h /\ l1 = p ++ n :: q) as (-> & ->) by (split; congruence).
        apply mid_In in J as [->|J]; easy.
      * intros [= <- <-]. rewrite upd_neq by auto. unfold upd. destruct (G1 a e' m' F) as (h1 & l1 & He & J). destruct (Nat.eqb_spec e' d) as [->|]; eauto.
        assert (h1 = h' /\ l1 = p' ++ q') as (-> & ->) by (split; congruence). exists h', (p' ++ n :: q'). split; auto. apply mid_In. auto.
    + intros e h1 l1. cbn. unfold upd. destruct (Nat.eqb_spec e c) as [->|]; [intros [= <- <-]; exact ND|]. destruct (Nat.eqb_spec e d) as [->|]; [|apply G2]. intros [= <- <-]. apply mid_ND. split; auto.
      intros J. apply In_nth_error in J as (i' & J). apply (Nn i'). exists h', (p' ++ q'). auto.
  - destruct Ef as (_ & h & l0 & Hc & ->), Al as (h' & l0' & Hc' & Pe). assert (h' = h /\ l0' = l0) as (-> & ->) by (split; congruence). split.
    + intros a e m H. destruct (G1 a e m H) as (h' & l' & He & J). cbn. unfold upd. destruct (Nat.eqb_spec e c) as [->|]; eauto. assert (h' = h /\ l' = l0) as (-> & ->) by (split; congruence).
      exists h, l. split; auto. eapply Permutation_in; [|exact J]. now apply Permutation_app_tail.
    + intros e h' l'. cbn. unfold upd. destruct (Nat.eqb_spec e c) as [->|]; [|apply G2]. intros [= <- <-]. eapply Permutation_NoDup; [|apply (G2 _ _ _ Hc)]. now apply Permutation_app_tail.
  - destruct Ef as (_ & h & l & Hc & ->). apply each_hit; auto; [|cbn; repeat constructor; easy]. intros a e m H -> Pm. cbn. left. destruct (Nat.eqb_spec m h); [auto|easy].
  - destruct Ef as (_ & ->). assert (SS : forall e, swapped c d (swapped c d e) = e) by apply sw_sw. split.
    + intros a e m. unfold it. cbn. destruct (iters w a) as [x|] eqn:F; cbn; [|easy]. destruct x as [| |e' m']; try easy. intros [= <- <-]. rewrite SS. eapply G1; eauto.
    + intros e h l. cbn. apply G2.
  - destruct Ef as (_ & ->). apply each_hit; auto. intros; easy.
  - destruct Ef as (_ & h & p & n & q & Ha & Hc & ->). assert (ND := G2 _ _ _ Hc). apply mid_ND in ND as (Nn & ND).
    assert (X : good (put (each w (hit c (Nat.eqb n) (fun _ => Gone))) c (Some (h, p ++ q)))).
    { apply each_hit; auto. intros b e m H -> Pm. destruct (G1 b c m H) as (h' & l' & He & J). assert (h' = h /\ l' = p ++ n :: q) as (-> & ->) by (split; congruence). apply mid_In in J as [->|J]; auto. now rewrite Nat.eqb_refl in Pm. }
    apply (set_good r0 X (x := Some (At c (hd h q)))). intros ? ? [= <- <-]. cbn. rewrite upd_eq. exists h, (p ++ q). split; auto. rewrite !in_app_iff. destruct q; cbn; auto.
Qed.
Definition st_of (s : sst) : abs := (vw s, cw s).
Lemma view_toW s : view s = toW (st_of s).
Proof. reflexivity. Qed.
Lemma st_weq s v : st s v -> weq (view s) (toW v).
Proof. intros (_ & S1 & S2). rewrite view_toW. split; intros b; cbn; [now rewrite S1|now rewrite S2]. Qed.
Lemma st_self s : inv s -> st s (st_of s).
Proof. intros I. split; auto. Qed.
Lemma weq_sym w w' : weq w w' -> weq w' w.
Proof. intros (A & B). split; auto. Qed.
Lemma weq_trans w1 w2 w3 : weq w1 w2 -> weq w2 w3 -> weq w1 w3.
Proof. intros (A & B) (C & D). split; intros; [now rewrite A|now rewrite B]. Qed.
Section Run.
Variable local : list nat -> nat.
Hypothesis local_ok : forall l, ~ In (local l) (0 :: l).
Definition ok (s : sst) : Prop := inv s /\ sound (st_of s).
Lemma ok_start : ok start.
Proof.
  split.
  - exists (fun _ => []). split; cbn; intros; try easy; try (constructor; fail). split; [easy|]. intros (_ & _ & y & [=] & _).
  - split; intros; easy.
Qed.
Lemma run_ok s o : ok s -> allowed o (view s) ->
  match run local o s with
  | Ret r s' => correct o (view s) /\ (exists w, effect o (view s) r w /\ weq (view s') w) /\ ok s'
  | Exn s' => ~ correct o (view s) /\ weq (view s') (view s) /\ ok s'
  | UB => False
  end.
Proof.
  intros (Iv & Sd) Al. assert (V0 : snd (st_of s) 0 = None). { cbn. destruct Iv as (G & Wf). apply cw_none. apply (x_cts0 Wf). }
  assert (H := @sim_all local local_ok (st_of s) V0 Sd o Al s (st_self Iv)). unfold wp in H. destruct (sound_good Sd) as (Gd & Td).
  destruct (run local o s) as [r s'|s'|]; [| |easy].
  - destruct H as (v' & (Co & (w & Ef & Eq) & Ty') & St). rewrite view_toW. split; auto. assert (Eq' := weq_trans (st_weq St) Eq). split; [eauto|].
    split; [apply St|]. apply good_sound.
    + intros a n c u F N. destruct St as (_ & S1 & _). cbn in F. rewrite S1 in F. eapply Ty'; eauto.
    + eapply good_weq; [exact Eq'|]. eapply effect_good; eauto.
  - destruct H as (v' & (Co & ->) & St). split; auto. assert (Eq := st_weq St). split; [exact Eq|]. split; [apply St|]. apply good_sound.
    + intros a n c u F N. destruct St as (_ & S1 & _). cbn in F. rewrite S1 in F. eapply Td; eauto.
    + eapply good_weq; [exact Eq|]. exact Gd.
Qed.
Lemma reach_is_ok s : reach local s -> ok s.
Proof.
  induction 1 as [|s o r s' _ IH Al R|s o s' _ IH Al R]; [apply ok_start| |]; assert (X := @run_ok s o IH Al); rewrite R in X; apply X.
Qed.
End Run.
