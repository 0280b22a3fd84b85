From Verif Require Import Prelude SeqModel SeqSpec SeqHeap SeqProofs.

Section U.
Variable V : Type.
Variable val : node -> option V.
Variable throws : nat -> bool.
Notation thrown := (thrown throws).

Lemma wf_tick s rs ls :
  wf s rs ls -> wf (mkS (nx s) (pr s) (S (tk s)) (fil s)) rs ls.
Proof. intros W. eapply wf_ext; eauto. Qed.

(** a call to user code leaves the heap as it is *)
Lemma ucall_wp {A} (a : A) s rs ls (Q : A -> sst -> Prop) (E : sst -> Prop) :
  wf s rs ls ->
  (forall s', wf s' rs ls -> fil s' = fil s -> Q a s') ->
  (forall s', wf s' rs ls -> fil s' = fil s -> thrown s' -> E s') ->
  wp (ucall throws a) Q E s.
Proof.
  intros W HQ HE. unfold wp, ucall. destruct (throws (tk s)) eqn:T.
  - apply HE; cbn; auto using wf_tick. exists (tk s). auto.
  - apply HQ; cbn; auto using wf_tick.
Qed.

Lemma cmp_wp lt a b s rs ls (Q : bool -> sst -> Prop) (E : sst -> Prop) :
  wf s rs ls -> all_vals val [a; b] ->
  (forall s', wf s' rs ls -> fil s' = fil s -> Q (on2 V val lt a b) s') ->
  (forall s', wf s' rs ls -> fil s' = fil s -> thrown s' -> E s') ->
  wp (cmp V val throws lt a b) Q E s.
Proof.
  intros W Av HQ HE. unfold cmp. inversion_clear Av as [|? ? [va Ha] Av'].
  inversion_clear Av' as [|? ? [vb Hb] _]. unfold on2 in HQ. rewrite Ha, Hb in *.
  eapply ucall_wp; eauto.
Qed.

Lemma pcall_wp pred a s rs ls (Q : bool -> sst -> Prop) (E : sst -> Prop) :
  wf s rs ls -> all_vals val [a] ->
  (forall s', wf s' rs ls -> fil s' = fil s -> Q (on1 V val pred a) s') ->
  (forall s', wf s' rs ls -> fil s' = fil s -> thrown s' -> E s') ->
  wp (pcall V val throws pred a) Q E s.
Proof.
  intros W Av HQ HE. unfold pcall. inversion_clear Av as [|? ? [va Ha] _].
  unfold on1 in HQ. rewrite Ha in *. eapply ucall_wp; eauto.
Qed.

Lemma not_end s h a x b rs ls : wf s ((h :: a ++ x :: b) :: rs) ls -> x <> h.
Proof. intros W. eapply hd_in_end; [exact W|]. rewrite in_app_iff; cbn; auto. Qed.

Lemma wp_next {B} s h l1 x l2 rs ls (k : node -> SM B) Q E :
  wf s ((h :: l1 ++ x :: l2) :: rs) ls ->
  wp (k (hd h l2)) Q E s ->
  wp (n <- get_next x ;; k n) Q E s.
Proof.
  intros W H. eapply wp_bind_ret; [|exact H]. unfold get_next.
  rewrite (next_at _ _ _ _ _ _ _ W). reflexivity.
Qed.

Lemma wp_begin {B} s h l rs ls (k : node -> SM B) Q E :
  wf s ((h :: l) :: rs) ls ->
  wp (k (hd h l)) Q E s ->
  wp (n <- get_next h ;; k n) Q E s.
Proof.
  intros W H. eapply wp_bind_ret; [|exact H]. unfold get_next.
  rewrite (begin_at _ _ _ _ _ W). reflexivity.
Qed.

(** ** remove *)
Lemma remove_loop_wp pred h rs ls : forall b a s fuel,
  wf s ((h :: a ++ b) :: rs) ls -> all_vals val b -> length b < fuel ->
  wp (s_remove_loop V val throws fuel pred (hd h b) h)
     (fun _ s' => wf s' ((h :: a ++ filter (fun x => negb (on1 V val pred x)) b) :: rs) ls)
     (fun s' => thrown s' /\ exists b1 b2, b = b1 ++ b2 /\
        wf s' ((h :: a ++ filter (fun x => negb (on1 V val pred x)) b1 ++ b2) :: rs) ls) s.
Proof.
  induction b as [|x b IH]; intros a s fuel W Av L; (destruct fuel as [|fuel]; [cbn in L; lia|]).
  - cbn. rewrite Nat.eqb_refl. auto.
  - cbn [s_remove_loop hd]. assert (D := not_end _ _ _ _ _ _ _ W).
    destruct (Nat.eqb_spec x h); [easy|].
    inversion_clear Av as [|? ? Vx Av'].
    apply wp_bind. eapply pcall_wp; [exact W|constructor; auto|..].
    + intros s1 W1 _. destruct (on1 V val pred x) eqn:P.
      * unfold increment. eapply wp_next; [exact W1|].
        destruct (s_erase_spec _ _ _ _ _ _ _ W1) as (s2 & E2 & W2 & _).
        eapply wp_bind_ret; [exact E2|].
        eapply wp_conseq; [apply (IH a); auto; cbn in L; lia|..].
        -- cbn. rewrite P. auto.
        -- cbn. intros s' (T & b1 & b2 & -> & W'). split; auto. exists (x :: b1), b2.
           split; auto. cbn. rewrite P. auto.
      * unfold increment. eapply wp_next; [exact W1|].
        eapply wp_conseq; [apply (IH (a ++ [x])); auto|..].
        -- now rewrite <- app_assoc.
        -- cbn in L; lia.
        -- cbn. rewrite P. cbn. intros _ s'. rewrite <- app_assoc. auto.
        -- cbn. intros s' (T & b1 & b2 & -> & W'). split; auto. exists (x :: b1), b2.
           split; auto. cbn. rewrite P. cbn. rewrite <- app_assoc in W'. auto.
    + intros s1 W1 _ T. split; auto. exists [], (x :: b). auto.
Qed.

(** ** unique *)
Lemma unique_loop_wp rel h rs ls : forall b a f s fuel,
  wf s ((h :: a ++ f :: b) :: rs) ls -> all_vals val (f :: b) -> length b < fuel ->
  wp (s_unique_loop V val throws fuel rel f h)
     (fun _ s' => wf s' ((h :: a ++ f :: uniq_from (on2 V val rel) f b) :: rs) ls)
     (fun s' => thrown s' /\ exists b1 b2, b = b1 ++ b2 /\
        wf s' ((h :: a ++ f :: uniq_from (on2 V val rel) f b1 ++ b2) :: rs) ls) s.
Proof.
  induction b as [|x b IH]; intros a f s fuel W Av L; (destruct fuel as [|fuel]; [cbn in L; lia|]).
  - cbn [s_unique_loop]. unfold increment. eapply wp_next; [exact W|]. cbn. rewrite Nat.eqb_refl. auto.
  - cbn [s_unique_loop]. unfold increment. eapply wp_next; [exact W|]. cbn [hd].
    assert (W0 := W). change (f :: x :: b) with ([f] ++ x :: b) in W0. rewrite app_assoc in W0.
    assert (D := not_end _ _ _ _ _ _ _ W0).
    destruct (Nat.eqb_spec x h); [easy|].
    inversion_clear Av as [|? ? Vf Av']. inversion_clear Av' as [|? ? Vx Av''].
    apply wp_bind. eapply cmp_wp; [exact W0|repeat constructor; auto|..].
    + intros s1 W1 _. destruct (on2 V val rel x f) eqn:P.
      * destruct (s_erase_spec _ _ _ _ _ _ _ W1) as (s2 & E2 & W2 & _).
        eapply wp_bind_ret; [exact E2|].
        eapply wp_conseq; [apply (IH a f); auto|..].
        -- now rewrite <- app_assoc in W2.
        -- constructor; auto.
        -- cbn in L; lia.
        -- cbn. rewrite P. auto.
        -- cbn. intros s' (T & b1 & b2 & -> & W'). split; auto. exists (x :: b1), b2.
           split; auto. cbn. rewrite P. auto.
      * eapply wp_conseq; [apply (IH (a ++ [f]) x); auto|..].
        -- constructor; auto.
        -- cbn in L; lia.
        -- cbn. rewrite P. cbn. intros _ s'. rewrite <- app_assoc. auto.
        -- cbn. intros s' (T & b1 & b2 & -> & W'). split; auto. exists (x :: b1), b2.
           split; auto. cbn. rewrite P. cbn. rewrite <- app_assoc in W'. auto.
    + intros s1 W1 _ T. split; auto. exists [], (x :: b). cbn. split; auto.
      rewrite <- app_assoc in W1. auto.
Qed.

(** ** transfers *)
Section Transfer.
Variable allow : node -> bool.

Lemma transfer_wp hx lx hy a n b rs ls s :
  wf s ((hx :: lx) :: (hy :: a ++ n :: b) :: rs) ls ->
  wp (transfer throws allow hx n)
     (fun r s' => r = allow n /\
        if allow n then wf s' ((hx :: lx ++ [n]) :: (hy :: a ++ b) :: rs) ls
        else wf s' ((hx :: lx) :: (hy :: a ++ n :: b) :: rs) ls)
     (fun s' => thrown s' /\ wf s' ((hx :: lx) :: (hy :: a ++ n :: b) :: rs) ls) s.
Proof.
  intros W. unfold transfer. apply wp_bind. eapply ucall_wp; [exact W|..].
  - intros s1 W1 _. destruct (allow n) eqn:A.
    + eapply wf_perm in W1; [|apply perm_swap].
      destruct (unlink_at _ _ _ _ _ _ _ W1) as (s2 & E2 & W2 & _).
      eapply wp_bind_ret; [exact E2|].
      eapply wf_perm in W2; [|apply perm_swap].
      destruct (link_spec _ _ _ _ _ _ W2) as (s3 & E3 & W3 & _).
      eapply wp_bind_ret; [exact E3|]. apply wp_ret. auto.
    + apply wp_ret. auto.
  - auto.
Qed.

Lemma transfer_range_wp hx hy rs ls b : forall seg a lx s fuel,
  wf s ((hx :: lx) :: (hy :: a ++ seg ++ b) :: rs) ls -> length seg < fuel ->
  wp (transfer_range throws allow fuel hx (hd hy (seg ++ b)) (hd hy b))
     (fun _ s' => wf s' ((hx :: lx ++ filter allow seg) ::
                         (hy :: a ++ filter (fun n => negb (allow n)) seg ++ b) :: rs) ls)
     (fun s' => thrown s' /\ exists seg1 seg2, seg = seg1 ++ seg2 /\
          wf s' ((hx :: lx ++ filter allow seg1) ::
                 (hy :: a ++ filter (fun n => negb (allow n)) seg1 ++ seg2 ++ b) :: rs) ls) s.
Proof.
  induction seg as [|x seg IH]; intros a lx s fuel W L; (destruct fuel as [|fuel]; [cbn in L; lia|]).
  - cbn. rewrite Nat.eqb_refl. unfold wp. cbn. rewrite app_nil_r. auto.
  - cbn [transfer_range hd app].
    assert (W0 := wf_perm _ _ _ _ W (perm_swap _ _ _)). cbn [app] in W0.
    destruct (Nat.eqb_spec x (hd hy b)) as [E|E].
    { exfalso. assert (N := wf_nodup _ _ _ _ _ W0). inversion_clear N.
      destruct b as [|y b]; cbn in E; subst; rewrite in_app_iff in *; cbn in *; [tauto|].
      apply NoDup_remove_2 in H0. rewrite !in_app_iff in H0. cbn in H0. tauto. }
    unfold increment. eapply wp_next; [exact W0|].
    apply wp_bind. cbn [app] in W. eapply wp_conseq; [apply (transfer_wp _ _ _ _ _ _ _ _ _ W)|..].
    + intros r s1 [-> W1]. cbn beta. destruct (allow x) eqn:A.
      * eapply wp_conseq; [apply (IH a (lx ++ [x])); auto; cbn in L; lia|..].
        -- cbn. rewrite A. cbn. intros _ s'. rewrite <- app_assoc. auto.
        -- cbn. intros s' (T & b1 & b2 & -> & W'). split; auto. exists (x :: b1), b2.
           split; auto. cbn. rewrite A. cbn. rewrite <- app_assoc in W'. auto.
      * eapply wp_conseq; [apply (IH (a ++ [x]) lx); auto|..].
        -- rewrite <- app_assoc. auto.
        -- cbn in L; lia.
        -- cbn. rewrite A. cbn. intros _ s'. rewrite <- app_assoc. auto.
        -- cbn. intros s' (T & b1 & b2 & -> & W'). split; auto. exists (x :: b1), b2.
           split; auto. cbn. rewrite A. cbn. rewrite <- app_assoc in W'. auto.
    + intros s1 [T W1]. split; auto. exists [], (x :: seg). cbn. rewrite app_nil_r. auto.
Qed.

Lemma external_splice1_wp hx l1 l2 hy a n b rs ls s :
  wf s ((hx :: l1 ++ l2) :: (hy :: a ++ n :: b) :: rs) ls ->
  wp (external_splice1 throws allow hx (hd hx l2) n)
     (fun r s' => r = allow n /\
        if allow n then wf s' ((hx :: l1 ++ n :: l2) :: (hy :: a ++ b) :: rs) ls
        else wf s' ((hx :: l1 ++ l2) :: (hy :: a ++ n :: b) :: rs) ls)
     (fun s' => thrown s' /\ wf s' ((hx :: l1 ++ l2) :: (hy :: a ++ n :: b) :: rs) ls) s.
Proof.
  intros W. unfold external_splice1. apply wp_bind.
  eapply wp_conseq; [apply (transfer_wp _ _ _ _ _ _ _ _ _ W)|..].
  - intros r s1 [-> W1]. cbn beta. destruct (allow n) eqn:A; cbn [andb].
    + destruct (Nat.eqb_spec (hd hx l2) hx) as [E|E]; cbn [negb].
      * assert (l2 = []) as ->.
        { destruct l2 as [|y l2]; auto. cbn in E. subst y. exfalso.
          eapply not_end; [exact W|reflexivity]. }
        rewrite app_nil_r in W1. apply wp_ret. auto.
      * rewrite <- app_assoc, app_assoc in W1.
        destruct (relink_at _ _ (l1 ++ l2) n [] l1 l2 _ _ W1) as (s2 & E2 & W2 & _).
        { now rewrite app_nil_r. }
        eapply wp_bind_ret; [exact E2|]. apply wp_ret. auto.
    + apply wp_ret. auto.
  - auto.
Qed.

(** range splice when no user code throws, or at the end position *)
Lemma external_splice_range_wp hx l1 l2 hy a seg b rs ls s fuel :
  wf s ((hx :: l1 ++ l2) :: (hy :: a ++ seg ++ b) :: rs) ls -> length seg < fuel ->
  l2 = [] \/ (forall n, throws n = false) ->
  wp (external_splice_range throws allow fuel hx (hd hx l2) (hd hy (seg ++ b)) (hd hy b))
     (fun _ s' => wf s' ((hx :: l1 ++ filter allow seg ++ l2) ::
                         (hy :: a ++ filter (fun n => negb (allow n)) seg ++ b) :: rs) ls)
     (fun s' => thrown s' /\ exists seg1 seg2, seg = seg1 ++ seg2 /\
          wf s' ((hx :: l1 ++ filter allow seg1 ++ l2) ::
                 (hy :: a ++ filter (fun n => negb (allow n)) seg1 ++ seg2 ++ b) :: rs) ls) s.
Proof.
  intros W L C. unfold external_splice_range.
  destruct (Nat.eqb_spec (hd hx l2) hx) as [E|E].
  - assert (l2 = []) as ->.
    { destruct l2 as [|y l2]; auto. cbn in E. subst y. exfalso.
      eapply not_end; [exact W|reflexivity]. }
    rewrite app_nil_r in W.
    eapply wp_conseq; [apply (transfer_range_wp _ _ _ _ _ _ _ _ _ _ W L)|..].
    + intros ? s' W'. rewrite app_nil_r. auto.
    + intros s' (T & s1 & s2 & -> & W'). split; auto. exists s1, s2. rewrite app_nil_r. auto.
  - destruct C as [->|NT]; [cbn in E; tauto|].
    destruct (exists_last (l := l1 ++ l2)) as (m & z & Ez).
    { intros Ez. apply app_eq_nil in Ez. destruct Ez as [_ ->]. cbn in E. tauto. }
    assert (Wz := W). rewrite Ez in Wz.
    assert (Pz := prior_end_at _ _ _ _ _ _ Wz).
    eapply wp_bind_ret; [unfold decrement, get_prior; rewrite Pz; reflexivity|].
    apply wp_bind. apply wp_try. apply wp_bind.
    eapply wp_conseq; [apply (transfer_range_wp _ _ _ _ _ _ _ _ _ _ Wz L)|..].
    + intros ? s1 W1. cbn beta in W1 |- *. apply wp_ret.
      assert (W1' := W1). rewrite <- app_assoc in W1'. cbn [app] in W1'.
      unfold increment. eapply wp_next; [exact W1'|].
      rewrite <- Ez, <- (app_nil_r (filter allow seg)) in W1.
      destruct (relink_range_at _ _ (l1 ++ l2) (filter allow seg) [] l1 l2 _ _ W1) as (s2 & E2 & W2 & _).
      { now rewrite app_nil_r. }
      rewrite app_nil_r in E2. unfold wp. cbn in E2. rewrite E2. auto.
    + intros s' ((k & _ & T) & _). congruence.
Qed.

(** ** merge *)
Fixpoint mergeA (lt : node -> node -> bool) (l0 : list node) : list node -> list node * list node :=
  fix go (l1 : list node) : list node * list node :=
    match l0, l1 with
    | [], _ => (filter allow l1, filter (fun n => negb (allow n)) l1)
    | _, [] => (l0, [])
    | a :: l0', b :: l1' =>
      if lt b a then
        let (x, y) := go l1' in
        if allow b then (b :: x, y) else (x, b :: y)
      else let (x, y) := mergeA lt l0' l1 in (a :: x, y)
    end.

Lemma mergeA_nil lt l1 : mergeA lt [] l1 = (filter allow l1, filter (fun n => negb (allow n)) l1).
Proof. destruct l1; reflexivity. Qed.
Lemma mergeA_nil2 lt l0 : mergeA lt l0 [] = (l0, []).
Proof. destruct l0; reflexivity. Qed.
Lemma mergeA_cons lt a l0 b l1 : mergeA lt (a :: l0) (b :: l1) =
  if lt b a then
    let (x, y) := mergeA lt (a :: l0) l1 in
    if allow b then (b :: x, y) else (x, b :: y)
  else let (x, y) := mergeA lt l0 (b :: l1) in (a :: x, y).
Proof. reflexivity. Qed.

Lemma filter_split_perm (p : node -> bool) l :
  Permutation (filter p l ++ filter (fun n => negb (p n)) l) l.
Proof.
  induction l as [|a l IH]; cbn; [constructor|].
  destruct (p a); cbn; [now constructor|].
  rewrite <- Permutation_middle. now constructor.
Qed.

Lemma mergeA_perm lt l0 l1 :
  Permutation (fst (mergeA lt l0 l1) ++ snd (mergeA lt l0 l1)) (l0 ++ l1).
Proof.
  revert l1. induction l0 as [|a l0 IH]; intros l1.
  - rewrite mergeA_nil. cbn. apply filter_split_perm.
  - induction l1 as [|b l1 IH1].
    + rewrite mergeA_nil2. cbn. reflexivity.
    + rewrite mergeA_cons. destruct (lt b a).
      * destruct (mergeA lt (a :: l0) l1) as [x y]. cbn in *.
        destruct (allow b); cbn.
        -- rewrite IH1. rewrite <- Permutation_middle. constructor.
        -- rewrite <- !Permutation_middle. rewrite IH1. constructor.
      * specialize (IH (b :: l1)). destruct (mergeA lt l0 (b :: l1)) as [x y]. cbn in *.
        now constructor.
Qed.

Lemma merge_loop_wp lt hx hy rs ls : forall fuel l0 l1 pre ban s,
  wf s ((hx :: pre ++ l0) :: (hy :: ban ++ l1) :: rs) ls ->
  all_vals val l0 -> all_vals val l1 ->
  length l0 + length l1 < fuel ->
  wp (s_merge_loop V val throws allow fuel lt hx (hd hx l0) hx (hd hy l1) hy)
     (fun r s' => exists X Y l1', r = hd hy l1' /\
        wf s' ((hx :: pre ++ X) :: (hy :: ban ++ Y ++ l1') :: rs) ls /\
        length l1' <= length l1 /\
        mergeA (on2 V val lt) l0 l1 = (X ++ filter allow l1', Y ++ filter (fun n => negb (allow n)) l1'))
     (fun s' => thrown s' /\ exists X Y, wf s' ((hx :: pre ++ X) :: (hy :: ban ++ Y) :: rs) ls /\
        Permutation (X ++ Y) (l0 ++ l1)) s.
Proof.
  induction fuel as [|fuel IH]; intros l0 l1 pre ban s W A0 A1 L; [lia|].
  cbn [s_merge_loop]. destruct l0 as [|a l0].
  { cbn [hd]. rewrite Nat.eqb_refl. cbn [orb]. apply wp_ret. exists [], [], l1.
    rewrite mergeA_nil. auto. }
  assert (a <> hx) by (eapply not_end; exact W). cbn [hd].
  destruct (Nat.eqb_spec a hx); [easy|]. cbn [orb].
  assert (W' := wf_perm _ _ _ _ W (perm_swap _ _ _)).
  destruct l1 as [|b l1].
  { cbn [hd]. rewrite Nat.eqb_refl. apply wp_ret. exists (a :: l0), [], [].
    rewrite mergeA_nil2. cbn [filter]. rewrite !app_nil_r in *. auto. }
  assert (b <> hy) by (eapply not_end; exact W'). cbn [hd].
  destruct (Nat.eqb_spec b hy); [easy|].
  inversion A0 as [|? ? Va A0']; subst. inversion A1 as [|? ? Vb A1']; subst.
  apply wp_bind. eapply cmp_wp; [exact W|repeat constructor; auto|..].
  - intros s1 W1 _. assert (W1' := wf_perm _ _ _ _ W1 (perm_swap _ _ _)).
    rewrite mergeA_cons. destruct (on2 V val lt b a) eqn:C.
    + unfold increment. eapply wp_next; [exact W1'|]. apply wp_bind.
      eapply wp_conseq; [apply (external_splice1_wp hx pre (a :: l0) hy ban b l1 _ _ _ W1)|..].
      * intros r s2 [-> W2]. cbn beta. destruct (allow b) eqn:Al.
        -- eapply wp_conseq; [apply (IH (a :: l0) l1 (pre ++ [b]) ban s2)|..]; auto.
           ++ rewrite <- app_assoc. auto.
           ++ cbn in *. lia.
           ++ intros r s3 (X & Y & l1' & -> & W3 & Ln & E). exists (b :: X), Y, l1'.
              rewrite E. rewrite <- app_assoc in W3. cbn in *. auto.
           ++ intros s3 (T & X & Y & W3 & P). split; auto. exists (b :: X), Y.
              rewrite <- app_assoc in W3. split; auto. cbn. rewrite P. cbn.
              rewrite <- Permutation_middle. constructor.
        -- eapply wp_conseq; [apply (IH (a :: l0) l1 pre (ban ++ [b]) s2)|..]; auto.
           ++ rewrite <- app_assoc. auto.
           ++ cbn in *. lia.
           ++ intros r s3 (X & Y & l1' & -> & W3 & Ln & E). exists X, (b :: Y), l1'.
              rewrite E. rewrite <- app_assoc in W3. cbn in *. auto.
           ++ intros s3 (T & X & Y & W3 & P). split; auto. exists X, (b :: Y).
              rewrite <- app_assoc in W3. split; auto. cbn. rewrite <- !Permutation_middle, P. cbn.
              constructor.
      * intros s2 [T W2]. split; auto. exists (a :: l0), (b :: l1). auto.
    + unfold increment. eapply wp_next; [exact W1|].
      eapply wp_conseq; [apply (IH l0 (b :: l1) (pre ++ [a]) ban s1)|..]; auto.
      * rewrite <- app_assoc. auto.
      * cbn in *. lia.
      * intros r s3 (X & Y & l1' & -> & W3 & Ln & E). exists (a :: X), Y, l1'.
        rewrite E. rewrite <- app_assoc in W3. cbn in *. auto.
      * intros s3 (T & X & Y & W3 & P). split; auto. exists (a :: X), Y.
        rewrite <- app_assoc in W3. split; auto. cbn. now rewrite P.
  - intros s1 W1 _ T. split; auto. exists (a :: l0), (b :: l1). auto.
Qed.

Lemma merge_wp lt hx hy rs ls fuel l0 l1 s :
  wf s ((hx :: l0) :: (hy :: l1) :: rs) ls ->
  all_vals val l0 -> all_vals val l1 ->
  length l0 + length l1 < fuel ->
  wp (s_merge V val throws allow fuel lt hx hy)
     (fun _ s' => wf s' ((hx :: fst (mergeA (on2 V val lt) l0 l1)) ::
                         (hy :: snd (mergeA (on2 V val lt) l0 l1)) :: rs) ls)
     (fun s' => thrown s' /\ exists X Y, wf s' ((hx :: X) :: (hy :: Y) :: rs) ls /\
        Permutation (X ++ Y) (l0 ++ l1)) s.
Proof.
  intros W A0 A1 L. unfold s_merge.
  destruct (Nat.eqb_spec hx hy) as [->|_].
  { exfalso. destruct W as (_ & N & _). cbn in N. inversion_clear N.
    rewrite !in_app_iff in H. cbn in H. tauto. }
  unfold s_begin. eapply wp_begin; [exact W|].
  assert (W' := wf_perm _ _ _ _ W (perm_swap _ _ _)).
  eapply wp_begin; [exact W'|]. apply wp_bind.
  eapply wp_conseq; [apply (merge_loop_wp lt hx hy rs ls fuel l0 l1 [] [] s)|..]; auto.
  - intros r s1 (X & Y & l1' & -> & W1 & Ln & E). cbn [app] in W1. cbn beta.
    rewrite E. cbn [fst snd].
    rewrite <- (app_nil_r l1') in W1. rewrite <- (app_nil_r X) in W1.
    assert (G := external_splice_range_wp hx X [] hy Y l1' [] rs ls s1 fuel W1).
    rewrite !app_nil_r in G. cbn [hd] in G. eapply wp_conseq; [apply G; [lia|auto]|..].
    + auto.
    + intros s2 (T & g1 & g2 & -> & W2). split; auto.
      rewrite !app_nil_r in W2. eexists _, _. split; [exact W2|].
      assert (P := mergeA_perm (on2 V val lt) l0 l1). rewrite E in P. cbn [fst snd] in P.
      rewrite !filter_app in P. pose proof (filter_split_perm allow g2). perm.
Qed.


(** ** Order facts *)
Section Order.
Variable lt : V -> V -> bool.
Hypothesis SWO : strict_weak_order lt.
Notation ltn := (on2 V val lt).
Definition leN a b := ltn b a = false.
Definition valued x := exists v, val x = Some v.

Lemma sorted_leN l : sorted_by val lt l <-> StronglySorted leN l.
Proof.
  assert (E : forall a b, (forall va vb, val a = Some va -> val b = Some vb -> lt vb va = false) <-> leN a b).
  { intros a b. unfold leN, on2. split.
    - intros H. destruct (val b), (val a); auto.
    - intros H va vb Ea Eb. now rewrite Ea, Eb in H. }
  unfold sorted_by. split; intros H; (induction H as [|a l Hs IH Ha];
    [apply SSorted_nil | apply SSorted_cons; [auto | eapply Forall_impl; [|exact Ha]; cbn beta; intros y Hy; apply E; exact Hy]]).
Qed.

Lemma leN_trans a b c : valued b -> leN a b -> leN b c -> leN a c.
Proof.
  destruct SWO as (_ & _ & N). intros [vb Eb]. unfold leN, on2. rewrite Eb.
  destruct (val a), (val c); auto. apply N.
Qed.

Lemma ltn_leN a b : ltn a b = true -> leN a b.
Proof.
  destruct SWO as (I & T & _). unfold leN, on2. destruct (val a), (val b); auto.
  intros H. destruct (lt v0 v) eqn:E; auto. rewrite <- (I v). rewrite (T v v0 v); auto.
Qed.

Lemma eqv_lt v a b : equivalent V val lt v b = true -> ltn b a = true -> equivalent V val lt v a = false.
Proof.
  destruct SWO as (I & T & N). unfold equivalent, on2. destruct (val b) as [wb|]; [|easy].
  destruct (val a) as [wa|]; [|easy].
  rewrite andb_true_iff, !negb_true_iff. intros [A B] C.
  destruct (lt v wa) eqn:D; [reflexivity|]. exfalso.
  (* wa <= v, v <= wb gives wa <= wb *)
  assert (lt wb wa = false) by (eapply N; eauto). congruence.
Qed.

Lemma eqv_sorted_nil v b a l :
  equivalent V val lt v b = true -> ltn b a = true -> Forall (leN a) l -> valued a ->
  filter (equivalent V val lt v) (a :: l) = [].
Proof.
  intros Eb L F Va. cbn. rewrite (eqv_lt v a b); auto.
  induction F as [|c l Hc F IH]; auto. cbn.
  destruct (equivalent V val lt v c) eqn:Ec; auto. exfalso.
  (* a <= c ~ v ~ b < a *)
  destruct SWO as (I & T & N). destruct Va as [va Ea].
  unfold leN, on2 in *. unfold equivalent in *. rewrite Ea in *.
  destruct (val b) as [wb|]; [|easy]. destruct (val c) as [wc|]; [|easy].
  rewrite andb_true_iff, !negb_true_iff in *. destruct Eb, Ec.
  assert (lt wb wc = false) by (eapply N; eauto).
  assert (lt wb va = false) by (eapply N with (b := wc); eauto). congruence.
Qed.

Lemma mergeA_snd l0 l1 : snd (mergeA ltn l0 l1) = filter (fun n => negb (allow n)) l1.
Proof.
  revert l1. induction l0 as [|a l0 IH]; intros l1; [now rewrite mergeA_nil|].
  induction l1 as [|b l1 IH1]; [now rewrite mergeA_nil2|].
  rewrite mergeA_cons. destruct (ltn b a).
  - destruct (mergeA ltn (a :: l0) l1). cbn in *. destruct (allow b); cbn; congruence.
  - specialize (IH (b :: l1)). destruct (mergeA ltn l0 (b :: l1)). auto.
Qed.

Lemma mergeA_in l0 l1 x : In x (fst (mergeA ltn l0 l1)) -> In x l0 \/ In x l1.
Proof.
  intros H. rewrite <- in_app_iff. eapply Permutation_in; [apply (mergeA_perm ltn)|].
  rewrite in_app_iff. auto.
Qed.

Lemma SS_filter p l : StronglySorted leN l -> StronglySorted leN (filter p l).
Proof.
  induction 1 as [|a l Hs IH Ha]; cbn; [constructor|].
  destruct (p a); auto. constructor; auto.
  rewrite Forall_forall in *. intros x Hx. apply filter_In in Hx. apply Ha. tauto.
Qed.

Lemma mergeA_sorted l0 l1 :
  all_vals val l0 -> all_vals val l1 ->
  StronglySorted leN l0 -> StronglySorted leN l1 ->
  StronglySorted leN (fst (mergeA ltn l0 l1)).
Proof.
  revert l1. induction l0 as [|a l0 IH]; intros l1 A0 A1 S0 S1.
  { rewrite mergeA_nil. cbn. now apply SS_filter. }
  induction l1 as [|b l1 IH1]; [now rewrite mergeA_nil2|].
  inversion A0 as [|? ? Va A0']; subst. inversion A1 as [|? ? Vb A1']; subst.
  inversion S0 as [|? ? S0' F0]; subst. inversion S1 as [|? ? S1' F1]; subst.
  rewrite mergeA_cons. destruct (ltn b a) eqn:C.
  - assert (G := mergeA_in (a :: l0) l1). specialize (IH1 A1' S1').
    destruct (mergeA ltn (a :: l0) l1) as [X Y]. cbn [fst] in *.
    destruct (allow b); cbn [fst]; auto. constructor; auto.
    apply ltn_leN in C.
    rewrite Forall_forall in *. intros x Hx. destruct (G x Hx) as [[<-|I]|I]; auto.
    apply leN_trans with (b := a); auto.
  - assert (G := mergeA_in l0 (b :: l1)). specialize (IH (b :: l1) A0' A1 S0' S1).
    destruct (mergeA ltn l0 (b :: l1)) as [X Y]. cbn [fst] in *.
    constructor; auto. rewrite Forall_forall in *. intros x Hx. destruct (G x Hx) as [I|[<-|I]]; auto.
    apply leN_trans with (b := b); auto.
Qed.

Lemma filter_cons {A} (p : A -> bool) a l :
  filter p (a :: l) = if p a then a :: filter p l else filter p l.
Proof. reflexivity. Qed.

Lemma mergeA_stable l0 l1 :
  all_vals val l0 -> StronglySorted leN l0 ->
  stable_of V val lt (l0 ++ filter allow l1) (fst (mergeA ltn l0 l1)).
Proof.
  intros A0 S0 v. rewrite filter_app. revert l1. induction l0 as [|a l0 IH]; intros l1.
  { rewrite mergeA_nil. reflexivity. }
  inversion A0 as [|? ? Va A0']; subst. inversion S0 as [|? ? S0' F0]; subst.
  induction l1 as [|b l1 IH1]; [rewrite mergeA_nil2; cbn [filter fst]; now rewrite app_nil_r|].
  rewrite mergeA_cons. destruct (ltn b a) eqn:C.
  - destruct (mergeA ltn (a :: l0) l1) as [X Y]. cbn [fst] in *.
    destruct (allow b) eqn:Al; cbn [fst]; [|cbn [filter]; rewrite Al; exact IH1].
    rewrite (filter_cons _ b X), (filter_cons allow), Al, (filter_cons _ b). destruct (equivalent V val lt v b) eqn:Eb.
    + rewrite IH1. rewrite (eqv_sorted_nil v b a l0); auto.
    + exact IH1.
  - specialize (IH A0' S0' (b :: l1)). destruct (mergeA ltn l0 (b :: l1)) as [X Y].
    cbn [fst] in *. rewrite !(filter_cons _ a). destruct (equivalent V val lt v a); rewrite IH; auto.
Qed.
End Order.
End Transfer.
End U.
