From Verif Require Import Prelude SeqModel SeqSpec SeqHeap SeqProofs SeqUser.

Section Srt.
Variable V : Type.
Variable val : node -> option V.
Variable throws : nat -> bool.
Variable lt : V -> V -> bool.
Notation thrown := (thrown throws).
Notation ltn := (on2 V val lt).

(** merge where elements of the second list go first only if smaller *)
Definition mrg l0 l1 := fst (mergeA (fun _ => true) ltn l0 l1).

Lemma mrg_nil l1 : mrg [] l1 = l1.
Proof.
  unfold mrg. rewrite mergeA_nil. cbn. induction l1 as [|a l1 IH]; cbn; congruence.
Qed.
Lemma mrg_nil2 l0 : mrg l0 [] = l0.
Proof. unfold mrg. now rewrite mergeA_nil2. Qed.
Lemma mrg_cons a l0 b l1 : mrg (a :: l0) (b :: l1) =
  if ltn b a then b :: mrg (a :: l0) l1 else a :: mrg l0 (b :: l1).
Proof.
  unfold mrg. rewrite mergeA_cons. destruct (ltn b a).
  - destruct (mergeA _ _ (a :: l0) l1); reflexivity.
  - destruct (mergeA _ _ l0 (b :: l1)); reflexivity.
Qed.

Lemma mrg_perm l0 l1 : Permutation (mrg l0 l1) (l0 ++ l1).
Proof.
  unfold mrg. assert (P := mergeA_perm (fun _ => true) ltn l0 l1).
  rewrite mergeA_snd in P.
  assert (E : filter (fun _ : node => negb true) l1 = []).
  { clear. induction l1; auto. }
  rewrite E, app_nil_r in P. exact P.
Qed.

Lemma collate_loop_wp x y rs ls : forall fuel l0 l1 pre s,
  wf s ((x :: pre ++ l0) :: (y :: l1) :: rs) ls ->
  all_vals val l0 -> all_vals val l1 ->
  length l0 + length l1 < fuel ->
  wp (collate_loop V val throws fuel lt (hd x l0) x (hd y l1) y)
     (fun r s' => exists m l1', r = hd y l1' /\ fil s' = fil s /\
        wf s' ((x :: pre ++ m) :: (y :: l1') :: rs) ls /\ mrg l0 l1 = m ++ l1')
     (fun s' => thrown s' /\ fil s' = fil s /\ exists m l1',
        wf s' ((x :: pre ++ m) :: (y :: l1') :: rs) ls /\ Permutation (m ++ l1') (l0 ++ l1)) s.
Proof.
  induction fuel as [|fuel IH]; intros l0 l1 pre s W A0 A1 L; [lia|].
  cbn [collate_loop]. destruct l0 as [|a l0].
  { cbn [hd]. rewrite Nat.eqb_refl. cbn [orb]. apply wp_ret. exists [], l1.
    rewrite mrg_nil. auto. }
  assert (a <> x) by (eapply not_end; exact W). cbn [hd].
  destruct (Nat.eqb_spec a x); [easy|]. cbn [orb].
  assert (W' := wf_perm _ _ _ _ W (perm_swap _ _ _)).
  destruct l1 as [|b l1].
  { cbn [hd]. rewrite Nat.eqb_refl. apply wp_ret. exists (a :: l0), [].
    rewrite mrg_nil2, app_nil_r. auto. }
  assert (b <> y) by (eapply not_end with (a := []); exact W'). cbn [hd].
  destruct (Nat.eqb_spec b y); [easy|].
  inversion A0 as [|? ? Va A0']; subst. inversion A1 as [|? ? Vb A1']; subst.
  apply wp_bind. eapply cmp_wp; [exact W|repeat constructor; auto|..].
  - intros s1 W1 F1. assert (W1' := wf_perm _ _ _ _ W1 (perm_swap _ _ _)).
    rewrite mrg_cons. destruct (ltn b a) eqn:C.
    + eapply wp_next with (l1 := []); [exact W1'|].
      destruct (relink_across s1 y [] b l1 x pre (a :: l0) rs ls W1') as (s2 & E2 & W2 & F2).
      eapply wp_bind_ret; [exact E2|].
      assert (W2' := wf_perm _ _ _ _ W2 (perm_swap _ _ _)).
      eapply wp_conseq; [apply (IH (a :: l0) l1 (pre ++ [b]) s2)|..]; auto.
      * rewrite <- app_assoc. auto.
      * cbn in *. lia.
      * intros r s3 (m & l1' & -> & F3 & W3 & E). exists (b :: m), l1'.
        rewrite <- app_assoc in W3. cbn in *. rewrite E. destruct F2.
        splits; auto; congruence.
      * intros s3 (T & F3 & m & l1' & W3 & P). destruct F2. split; auto. split; [congruence|].
        exists (b :: m), l1'. rewrite <- app_assoc in W3. split; auto. perm.
    + eapply wp_next; [exact W1|].
      eapply wp_conseq; [apply (IH l0 (b :: l1) (pre ++ [a]) s1)|..]; auto.
      * rewrite <- app_assoc. auto.
      * cbn in *. lia.
      * intros r s3 (m & l1' & -> & F3 & W3 & E). exists (a :: m), l1'.
        rewrite <- app_assoc in W3. cbn in *. rewrite E.
        splits; auto; congruence.
      * intros s3 (T & F3 & m & l1' & W3 & P). split; auto. split; [congruence|].
        exists (a :: m), l1'. rewrite <- app_assoc in W3. split; auto. perm.
  - intros s1 W1 F1 T. splits; auto. exists (a :: l0), (b :: l1). auto.
Qed.

Lemma collate_wp x y rs ls fuel l0 l1 s :
  wf s ((x :: l0) :: (y :: l1) :: rs) ls ->
  all_vals val l0 -> all_vals val l1 ->
  length l0 + length l1 < fuel ->
  wp (collate V val throws fuel lt x y)
     (fun _ s' => fil s' = fil s /\ wf s' ((x :: mrg l0 l1) :: [y] :: rs) ls)
     (fun s' => thrown s' /\ fil s' = fil s /\ exists m l1',
        wf s' ((x :: m) :: (y :: l1') :: rs) ls /\ Permutation (m ++ l1') (l0 ++ l1)) s.
Proof.
  intros W A0 A1 L. unfold collate.
  eapply wp_begin; [exact W|].
  assert (W' := wf_perm _ _ _ _ W (perm_swap _ _ _)).
  eapply wp_begin; [exact W'|]. apply wp_bind.
  eapply wp_conseq; [apply (collate_loop_wp x y rs ls fuel l0 l1 [] s)|..]; auto.
  intros r s1 (m & l1' & -> & F1 & W1 & E). cbn [app] in W1. cbn beta.
  assert (W1' := wf_perm _ _ _ _ W1 (perm_swap _ _ _)).
  rewrite <- (app_nil_r l1'), <- (app_nil_r m) in W1'.
  destruct (relink_range_across s1 y [] l1' [] x m [] rs ls) as (s2 & E2 & W2 & F2); auto.
  rewrite !app_nil_r in *. cbn [hd app] in *. unfold wp. rewrite E2.
  destruct F2. split; [congruence|]. rewrite E.
  eapply wf_perm; [exact W2|apply perm_swap].
Qed.

(** ** The binary counter *)
Variable digits : nat.
Variable carry : node.
Variable cnt : nat -> node.

Fixpoint crings (k : nat) (cs : list (list node)) : list (list node) :=
  match cs with
  | [] => []
  | c :: cs' => (cnt k :: c) :: crings (S k) cs'
  end.

Lemma crings_app k a b : crings k (a ++ b) = crings k a ++ crings (k + length a) b.
Proof.
  revert k. induction a as [|c a IH]; intros k; cbn; [now rewrite Nat.add_0_r|].
  now rewrite IH, Nat.add_succ_comm.
Qed.

Section Fixed.
Variable h : node.
Variable rs : list (list node).
Variable ls : list node.
Variable l : list node.
Hypothesis Vl : all_vals val l.

Definition INV (s : sst) (rest c : list node) (cs : list (list node)) : Prop :=
  wf s ((h :: rest) :: (carry :: c) :: crings 0 cs ++ rs)
       (map cnt (seq (length cs) (digits + 1 - length cs)) ++ ls) /\
  length cs = fil s + 1 /\ length cs <= digits + 1 /\
  Permutation (rest ++ c ++ concat cs) l.

Definition EX (s : sst) : Prop := thrown s /\ exists rest c cs, INV s rest c cs.

Lemma INV_perm s rest c a x b :
  INV s rest c (a ++ x :: b) ->
  wf s ((carry :: c) :: (cnt (length a) :: x) :: (h :: rest) :: crings 0 a ++ crings (S (length a)) b ++ rs)
     (map cnt (seq (length (a ++ x :: b)) (digits + 1 - length (a ++ x :: b))) ++ ls).
Proof.
  intros (W & _). eapply wf_perm; [exact W|].
  rewrite crings_app. cbn [crings]. cbn [Nat.add]. rewrite <- app_assoc. cbn [app].
  rewrite perm_swap. apply perm_skip. rewrite <- Permutation_middle. apply perm_swap.
Qed.

Lemma INV_perm_back s rest c a x b n :
  wf s ((carry :: c) :: (cnt (length a) :: x) :: (h :: rest) :: crings 0 a ++ crings (S (length a)) b ++ rs)
     (map cnt (seq n (digits + 1 - n)) ++ ls) ->
  n = length (a ++ x :: b) ->
  n = fil s + 1 -> n <= digits + 1 ->
  Permutation (rest ++ c ++ concat (a ++ x :: b)) l ->
  INV s rest c (a ++ x :: b).
Proof.
  intros W -> A B P. split; [|auto]. eapply wf_perm; [exact W|].
  rewrite crings_app. cbn [crings]. cbn [Nat.add]. rewrite <- app_assoc. cbn [app].
  symmetry. rewrite perm_swap. apply perm_skip. rewrite <- Permutation_middle. apply perm_swap.
Qed.

Lemma vals_of s rest c cs m : INV s rest c cs -> (forall x, In x m -> In x (rest ++ c ++ concat cs)) -> all_vals val m.
Proof.
  intros (_ & _ & _ & P) I. unfold all_vals in *. rewrite Forall_forall in *. intros x Ix. apply Vl.
  eapply Permutation_in; [exact P|auto].
Qed.

Lemma counter_ok i s : i <= digits -> counter digits cnt i s = Ret (cnt i) s.
Proof. intros H. unfold counter. destruct (Nat.ltb_spec i (digits + 1)); [reflexivity|lia]. Qed.

Fixpoint szok (k : nat) (cs : list (list node)) : Prop :=
  match cs with
  | [] => True
  | x :: r => (x = [] \/ length x = 2 ^ k) /\ szok (S k) r
  end.

Lemma szok_app k a b : szok k (a ++ b) <-> szok k a /\ szok (k + length a) b.
Proof.
  revert k. induction a as [|c a IH]; intros k; cbn; [rewrite Nat.add_0_r; tauto|].
  rewrite IH, Nat.add_succ_comm. tauto.
Qed.

Lemma len_le s rest c a x b : INV s rest c (a ++ x :: b) -> length c + length x <= length l.
Proof.
  intros (_ & _ & _ & P). apply Permutation_length in P.
  rewrite concat_app in P. cbn in P. rewrite !app_length in P. lia.
Qed.

(** sortedness of the pieces, meaningful when the order is a strict weak one *)
Definition srt (m : list node) : Prop := strict_weak_order lt -> StronglySorted (leN V val lt) m.

Lemma srt_mrg l0 l1 : all_vals val l0 -> all_vals val l1 -> srt l0 -> srt l1 -> srt (mrg l0 l1).
Proof.
  intros A0 A1 S0 S1 SWO. apply mergeA_sorted; auto.
Qed.

Lemma sort_carry_wp rest : forall b a c s fuel,
  INV s rest c (a ++ b) -> b <> [] -> last b [] = [] ->
  Forall (fun x => x = []) a -> szok (length a) b -> length c = 2 ^ length a ->
  srt c -> Forall srt b ->
  length l + length b < fuel ->
  wp (sort_carry V val throws digits carry cnt fuel lt (length a))
     (fun j s' => exists a' b' c', j = length a' /\ INV s' rest c' (a' ++ [] :: b') /\
        last ([] :: b') [] = [] /\
        Forall (fun x => x = []) a' /\ szok (S (length a')) b' /\ length c' = 2 ^ length a' /\
        srt c' /\ Forall srt b')
     EX s.
Proof.
  induction b as [|x b IH]; intros a c s fuel I Nb Lb Fa Sz Lc Sc Sb L; [easy|].
  destruct fuel as [|fuel]; [lia|]. cbn [sort_carry].
  unfold get_fill. eapply wp_bind_ret; [reflexivity|].
  pose proof I as (W & Lf & Ld & P). rewrite app_length in Lf, Ld. cbn [length] in Lf, Ld.
  destruct (Nat.ltb_spec (length a) (fil s)) as [H|H].
  - eapply wp_bind_ret; [apply counter_ok; lia|].
    assert (W1 := INV_perm _ _ _ _ _ _ I).
    assert (W2 := wf_perm _ _ _ _ W1 (perm_swap _ _ _)).
    eapply wp_begin; [exact W2|].
    destruct Sz as [Sx Sz]. inversion Sb as [|? ? Sx' Sb']; subst.
    destruct x as [|y x].
    + cbn [hd]. rewrite Nat.eqb_refl. apply wp_ret.
      exists a, b, c. splits; auto.
    + destruct Sx as [Sx|Sx]; [easy|].
      assert (y <> cnt (length a)).
      { eapply not_end with (a := []); exact W2. }
      cbn [hd]. destruct (Nat.eqb_spec y (cnt (length a))); [easy|].
      assert (LL := len_le _ _ _ _ _ _ I).
      apply wp_bind. eapply wp_conseq; [apply (collate_wp _ _ _ _ _ _ _ _ W1)|..].
      * eapply vals_of; [exact I|]. intros z. rewrite !in_app_iff. auto.
      * eapply vals_of; [exact I|]. intros z. rewrite concat_app. cbn [concat]. rewrite !in_app_iff. auto.
      * cbn [length] in *. lia.
      * intros ? s1 [F1 W3]. cbn beta.
        assert (Pm := mrg_perm c (y :: x)).
        assert (I1 : INV s1 rest (mrg c (y :: x)) (a ++ [] :: b)).
        { eapply INV_perm_back; [exact W3|..].
          - rewrite !app_length. reflexivity.
          - rewrite F1, app_length. cbn. lia.
          - rewrite app_length. cbn. lia.
          - rewrite concat_app in *. cbn [concat app] in *. perm. }
        assert (a ++ [] :: b = (a ++ [[]]) ++ b) as E by (now rewrite <- app_assoc).
        rewrite E in I1.
        replace (S (length a)) with (length (a ++ [[]])) in *
          by (rewrite app_length; cbn; lia).
        apply (IH _ _ _ _ I1); auto.
        -- intros ->. cbn in Lf. lia.
        -- destruct b; cbn in *; auto; lia.
        -- apply Forall_app. auto.
        -- rewrite (Permutation_length Pm), app_length, Lc, Sx, app_length. cbn.
           rewrite Nat.add_1_r. cbn. lia.
        -- apply srt_mrg; auto.
           ++ eapply vals_of; [exact I|]. intros z. rewrite !in_app_iff. auto.
           ++ eapply vals_of; [exact I|]. intros z. rewrite concat_app. cbn [concat]. rewrite !in_app_iff. auto.
        -- cbn in L. lia.
      * intros s1 (T & F1 & m & l1' & W3 & P'). split; auto.
        exists rest, m, (a ++ l1' :: b). eapply INV_perm_back; [exact W3|..].
        -- rewrite !app_length. reflexivity.
        -- rewrite F1, app_length. cbn. lia.
        -- rewrite app_length. cbn. lia.
        -- rewrite concat_app in *. cbn [concat app] in *. perm.
  - apply wp_ret. assert (b = []) as -> by (destruct b; auto; cbn in *; lia).
    cbn in Lb. subst x. exists a, [], c. splits; auto. exact Logic.I.
Qed.

(** ** Distribution of all the elements into counters *)
Lemma szok_snoc k cs : szok k cs -> szok k (cs ++ [[]]).
Proof. rewrite szok_app. cbn. auto. Qed.

Lemma szok_nils k a : Forall (fun x : list node => x = []) a -> szok k a.
Proof. intros F. revert k. induction F; cbn; auto. Qed.

Lemma sort_fill_wp fuel0 : forall fuel rest cs s,
  INV s rest [] cs -> szok 0 cs -> Forall srt cs -> cs <> [] -> last cs [] = [] ->
  length l < 2 ^ digits -> length l + digits + 1 < fuel0 -> length rest < fuel ->
  (rest = [] -> 2 <= length cs) ->
  wp (sort_fill V val throws digits carry cnt fuel0 fuel lt h)
     (fun _ s' => exists cs', INV s' [] [] cs' /\ Forall srt cs' /\ last cs' [] = [] /\ 2 <= length cs')
     EX s.
Proof.
  induction fuel as [|fuel IH]; intros rest cs s I Sz Sc Nc Lc Ln L0 L1 Hr; [lia|].
  cbn [sort_fill]. pose proof I as (W & Lf & Ld & P).
  eapply wp_begin; [exact W|]. destruct rest as [|x rest].
  { cbn [hd]. rewrite Nat.eqb_refl. apply wp_ret. exists cs. auto. }
  assert (x <> h) by (eapply not_end with (a := []); exact W).
  cbn [hd]. destruct (Nat.eqb_spec x h); [easy|].
  assert (W' := wf_perm _ _ _ _ W (perm_swap _ _ _)).
  eapply wp_begin; [exact W'|]. cbn [hd].
  destruct (relink_across s h [] x rest carry [] [] _ _ W) as (s1 & E1 & W1 & F1).
  cbn [hd app] in *. eapply wp_bind_ret; [exact E1|].
  destruct F1 as [_ F1].
  assert (I1 : INV s1 rest [x] ([] ++ cs)).
  { split; [exact W1|]. splits; auto. rewrite F1; auto. cbn [app]. perm. }
  apply wp_bind. eapply wp_conseq; [apply (sort_carry_wp rest cs [] [x] s1 fuel0)|..]; auto.
  - intros _. repeat constructor.
  - lia.
  - intros j s2 (a & b & c & -> & I2 & Lb & Fa & Szb & Lenc & Sc2 & Sb). cbn beta.
    pose proof I2 as (W2 & Lf2 & Ld2 & P2).
    rewrite app_length in Lf2, Ld2. cbn [length] in Lf2, Ld2.
    eapply wp_bind_ret; [apply counter_ok; lia|].
    assert (W3 := INV_perm _ _ _ _ _ _ I2).
    destruct (swap_spec _ _ _ _ _ _ _ W3) as (s3 & E3 & W4 & F3). destruct F3 as [_ F3].
    eapply wp_bind_ret; [exact E3|].
    assert (I3 : INV s3 rest [] (a ++ c :: b)).
    { eapply INV_perm_back; [exact W4|..].
      - rewrite !app_length. reflexivity.
      - rewrite F3, app_length. cbn. lia.
      - rewrite app_length. cbn. lia.
      - rewrite concat_app in *. cbn [concat app] in *. perm. }
    assert (Szn : szok 0 (a ++ c :: b)).
    { apply szok_app. split; [now apply szok_nils|]. cbn. auto. }
    assert (Ssn : Forall srt (a ++ c :: b)).
    { apply Forall_app. split; auto. eapply Forall_impl; [|exact Fa]. intros ? ->. intros _. constructor. }
    unfold get_fill. eapply wp_bind_ret; [reflexivity|].
    destruct (Nat.eqb_spec (length a) (fil s3)) as [E|E].
    + assert (b = []) as -> by (destruct b; auto; cbn in *; lia).
      assert (length c <= length l).
      { apply Permutation_length in P2. rewrite !app_length in P2. lia. }
      assert (length a < digits).
      { destruct (Nat.lt_ge_cases (length a) digits) as [|G]; auto. exfalso.
        assert (2 ^ digits <= 2 ^ length a) by (apply Nat.pow_le_mono_r; lia). lia. }
      eapply wp_bind_ret; [reflexivity|].
      eapply wp_bind_ret; [apply counter_ok; lia|].
      destruct I3 as (W5 & Lf3 & Ld3 & P3).
      rewrite app_length in W5, Lf3, Ld3. cbn [length] in W5, Lf3, Ld3.
      set (s4 := mkS (nx s3) (pr s3) (tk s3) (S (fil s3))).
      assert (W6 : wf s4 ((h :: rest) :: [carry] :: crings 0 (a ++ [c]) ++ rs)
                     (cnt (S (fil s3)) :: map cnt (seq (length a + 2) (digits + 1 - (length a + 2))) ++ ls)).
      { eapply wf_ext with (s := s3); [|reflexivity|reflexivity].
        replace (digits + 1 - (length a + 1)) with (S (digits + 1 - (length a + 2))) in W5 by lia.
        cbn [seq map app] in W5. rewrite <- E.
        replace (S (length a + 1)) with (length a + 2) in W5 by lia.
        replace (length a + 1) with (S (length a)) in W5 by lia. exact W5. }
      destruct (init_spec _ _ _ _ W6) as (s5 & E5 & W7 & F5). destruct F5 as [_ F5].
      eapply wp_bind_ret; [exact E5|].
      apply (IH rest ((a ++ [c]) ++ [[]])); auto.
      * split; [|splits].
        -- rewrite app_length. rewrite app_length. cbn [length].
           replace (length a + 1 + 1) with (length a + 2) by lia.
           eapply wf_perm; [exact W7|]. rewrite (crings_app 0 (a ++ [c])). cbn [crings].
           rewrite app_length. cbn [length Nat.add]. rewrite <- app_assoc. cbn [app].
           replace (length a + 1) with (S (fil s3)) by lia.
           set (q := [cnt (S (fil s3))]).
           rewrite perm_swap. apply perm_skip. rewrite perm_swap. apply perm_skip.
           apply Permutation_middle.
        -- rewrite F5, !app_length. cbn. lia.
        -- rewrite !app_length. cbn. lia.
        -- rewrite !concat_app in *. cbn [concat app] in *. perm.
      * now apply szok_snoc.
      * apply Forall_app. split; auto. constructor; auto. intros _. constructor.
      * destruct a; easy.
      * now rewrite last_last.
      * cbn in L1. lia.
      * rewrite !app_length. cbn. lia.
    + apply (IH rest (a ++ c :: b)); auto.
      * destruct a; easy.
      * destruct b as [|d b]; [cbn in *; lia|].
        assert (G : forall (u : list (list node)) v w, last (u ++ v :: w) [] = last (v :: w) []).
        { clear. induction u as [|? u IHu]; intros v w; auto. cbn [app].
          specialize (IHu v w). destruct (u ++ v :: w) eqn:Q; [destruct u; easy|].
          exact IHu. }
        rewrite G. cbn in Lb |- *. auto.
      * cbn in L1. lia.
      * intros _. rewrite app_length. cbn. destruct b; cbn in *; lia.
Qed.

(** ** Final merge of the counters *)
Lemma sort_gather_wp : forall b a x s fuel,
  INV s [] [] (a ++ x :: b) -> Forall (fun x => x = []) a ->
  srt x -> Forall srt b -> b <> [] -> last b [] = [] ->
  length l + length b < fuel ->
  wp (sort_gather V val throws digits cnt fuel lt (S (length a)))
     (fun _ s' => exists a' r, INV s' [] [] (a' ++ [r; []]) /\ Forall (fun x => x = []) a' /\ srt r /\
                  length a' + 1 = fil s')
     EX s.
Proof.
  induction b as [|y b IH]; intros a x s fuel I Fa Sx Sb Nb Lb L; [easy|].
  destruct fuel as [|fuel]; [lia|]. cbn [sort_gather].
  unfold get_fill. eapply wp_bind_ret; [reflexivity|].
  pose proof I as (W & Lf & Ld & P). rewrite app_length in Lf, Ld. cbn [length] in Lf, Ld.
  destruct (Nat.ltb_spec (S (length a)) (fil s)) as [H|H].
  - eapply wp_bind_ret; [apply counter_ok; lia|].
    eapply wp_bind_ret; [apply counter_ok; lia|].
    replace (S (length a) - 1) with (length a) by lia.
    inversion Sb as [|? ? Sy Sb']; subst.
    assert (RP : forall u v, Permutation
        ((h :: []) :: (carry :: []) :: crings 0 (a ++ u :: v :: b) ++ rs)
        ((cnt (S (length a)) :: v) :: (cnt (length a) :: u) ::
         [h] :: [carry] :: crings 0 a ++ crings (S (S (length a))) b ++ rs)).
    { intros u v. rewrite crings_app. cbn [crings]. cbn [Nat.add]. rewrite <- app_assoc. cbn [app].
      rewrite <- !Permutation_middle.
      rewrite !(perm_swap [carry]), !(perm_swap [h]).
      rewrite !(perm_swap (cnt (length a) :: u)). 
      apply perm_skip. rewrite !(perm_swap [carry]), !(perm_swap [h]). apply perm_skip. reflexivity. }
    assert (W1 := wf_perm _ _ _ _ W (RP x y)).
    assert (LL : length y + length x <= length l).
    { apply Permutation_length in P. rewrite concat_app in P. cbn in P. rewrite !app_length in P. lia. }
    assert (Vx : all_vals val x).
    { eapply vals_of; [exact I|]. intros z. rewrite concat_app. cbn [concat app]. rewrite !in_app_iff. auto. }
    assert (Vy : all_vals val y).
    { eapply vals_of; [exact I|]. intros z. rewrite concat_app. cbn [concat app]. rewrite !in_app_iff. auto. }
    apply wp_bind. eapply wp_conseq; [apply (collate_wp _ _ _ _ _ _ _ _ W1); auto|..].
    + cbn in *. lia.
    + intros ? s1 [F1 W2]. cbn beta.
      assert (Pm := mrg_perm y x).
      assert (I1 : INV s1 [] [] ((a ++ [[]]) ++ mrg y x :: b)).
      { split; [|splits].
        - rewrite <- app_assoc. cbn [app].
          replace (length (a ++ [] :: mrg y x :: b)) with (length (a ++ x :: y :: b))
            by (rewrite !app_length; reflexivity).
          eapply wf_perm; [exact W2|]. symmetry. apply RP.
        - rewrite F1, !app_length. cbn. lia.
        - rewrite !app_length. cbn. lia.
        - rewrite !concat_app in *. cbn [concat app] in *. perm. }
      replace (S (S (length a))) with (S (length (a ++ [[]]))) by (rewrite app_length; cbn; lia).
      eapply IH; eauto.
      * apply Forall_app. auto.
      * apply srt_mrg; auto.
      * intros ->. cbn in *. lia.
      * destruct b; cbn in *; auto; lia.
      * cbn in L. lia.
    + intros s1 (T & F1 & m & l1' & W2 & P'). split; auto. exists [], [], (a ++ l1' :: m :: b).
      split; [|splits].
      * replace (length (a ++ l1' :: m :: b)) with (length (a ++ x :: y :: b))
          by (rewrite !app_length; reflexivity).
        eapply wf_perm; [exact W2|]. symmetry. apply RP.
      * rewrite F1, !app_length. cbn. lia.
      * rewrite !app_length. cbn. lia.
      * rewrite !concat_app in *. cbn [concat app] in *. perm.
  - apply wp_ret. assert (b = []) as -> by (destruct b; auto; cbn in *; lia).
    cbn in Lb. subst y. exists a, x. splits; auto. cbn in Lf. lia.
Qed.

(** ** The exception handler *)
Lemma sort_restore_wp : forall cs a rest s (Q : unit -> sst -> Prop) E,
  wf s ((h :: rest) :: [carry] :: crings 0 (map (fun _ => []) a) ++ crings (length a) cs ++ rs)
     (map cnt (seq (length a + length cs) (digits + 1 - (length a + length cs))) ++ ls) ->
  length a + length cs <= digits + 1 ->
  (forall s', tk s' = tk s ->
     wf s' ((h :: rest ++ concat cs) :: [carry] :: crings 0 (map (fun _ => []) (a ++ cs)) ++ rs)
       (map cnt (seq (length a + length cs) (digits + 1 - (length a + length cs))) ++ ls) -> Q tt s') ->
  wp (sort_restore digits cnt (length cs) (length a) h) Q E s.
Proof.
  induction cs as [|c cs IH]; intros a rest s Q E W Ld HQ.
  - cbn. unfold wp. cbn. apply HQ; auto. cbn in *. rewrite !app_nil_r. exact W.
  - cbn [sort_restore length]. cbn [length] in Ld. eapply wp_bind_ret; [apply counter_ok; lia|].
    assert (RP : forall r u, Permutation
       ((h :: r) :: [carry] :: crings 0 (map (fun _ => []) a) ++ crings (length a) (u :: cs) ++ rs)
       ((cnt (length a) :: u) :: (h :: r) :: [carry] :: crings 0 (map (fun _ : list node => []) a) ++ crings (S (length a)) cs ++ rs)).
    { intros r u. cbn [crings app]. rewrite <- !Permutation_middle.
      rewrite (perm_swap (cnt (length a) :: u)). apply perm_swap. }
    assert (W1 := wf_perm _ _ _ _ W (RP rest c)).
    eapply wp_begin; [exact W1|].
    rewrite <- (app_nil_r c), <- (app_nil_r rest) in W1.
    destruct (relink_range_across s _ [] c [] h rest [] _ _ W1) as (s1 & E1 & W2 & F1).
    rewrite !app_nil_r in *. cbn [hd app] in *. eapply wp_bind_ret; [exact E1|].
    replace (S (length a)) with (length (a ++ [c])) by (rewrite app_length; cbn; lia).
    assert (Ll : length a + length (c :: cs) = length (a ++ [c]) + length cs)
      by (rewrite app_length; cbn; lia).
    apply (IH (a ++ [c]) (rest ++ c)).
    + rewrite <- Ll. eapply wf_perm; [exact W2|]. rewrite <- (RP (rest ++ c) []).
      rewrite map_app, crings_app, app_length, map_length. cbn [crings map length Nat.add].
      rewrite Nat.add_1_r, <- !app_assoc. reflexivity.
    + rewrite app_length. cbn. lia.
    + intros s' T W3. apply HQ; [destruct F1; congruence|]. rewrite Ll.
      rewrite <- !app_assoc in W3. exact W3.
Qed.
End Fixed.

Lemma drop_ring s r rs ls : wf s (r :: rs) ls -> wf s rs (r ++ ls).
Proof.
  intros W. pose proof W as (H1 & H2 & H3). inversion H1; subst. split; auto. split.
  - cbn in H2. eapply NoDup_perm; [|exact H2]. rewrite <- app_assoc, app_assoc.
    rewrite (Permutation_app_comm r). now rewrite <- app_assoc.
  - apply Forall_app. split; auto. rewrite Forall_forall. intros x Ix. eapply ring_alloc; eauto.
Qed.

Lemma drop_nils s k cs rs ls : Forall (fun x => x = []) cs ->
  wf s (crings k cs ++ rs) ls -> wf s rs (map cnt (seq k (length cs)) ++ ls).
Proof.
  intros F. revert k ls. induction F as [|c cs -> F IH]; intros k ls W; cbn in *; auto.
  apply drop_ring in W. apply IH in W. eapply wf_loose_perm; [exact W|].
  cbn [app]. symmetry. apply (Permutation_middle (map cnt (seq (S k) (length cs))) ls (cnt k)).
Qed.

Lemma wf_fill s rs ls n : wf s rs ls -> wf (mkS (nx s) (pr s) (tk s) n) rs ls.
Proof. intros W. eapply wf_ext; eauto. Qed.

(** total correctness of sorting *)
Lemma sort_wp h rs ls l s fuel :
  wf s ((h :: l) :: rs) (carry :: map cnt (seq 0 (digits + 1)) ++ ls) ->
  all_vals val l -> length l < 2 ^ digits -> length l + digits + 2 < fuel ->
  wp (s_sort V val throws digits carry cnt fuel lt h)
     (fun _ s' => exists l', wf s' ((h :: l') :: rs) (carry :: map cnt (seq 0 (digits + 1)) ++ ls) /\
                  Permutation l' l /\ srt l')
     (fun s' => thrown s' /\ exists l', wf s' ((h :: l') :: rs) (carry :: map cnt (seq 0 (digits + 1)) ++ ls) /\
                  Permutation l' l) s.
Proof.
  intros W Vl Ln Lf. unfold s_sort. eapply wp_begin; [exact W|].
  destruct l as [|x l].
  { cbn [hd]. rewrite Nat.eqb_refl. apply wp_ret. exists []. splits; auto. intros _. constructor. }
  assert (x <> h) by (eapply not_end with (a := []); exact W).
  cbn [hd]. destruct (Nat.eqb_spec x h); [easy|].
  eapply wp_next with (l1 := []); [exact W|].
  destruct l as [|y l].
  { cbn [hd]. rewrite Nat.eqb_refl. apply wp_ret. exists [x]. splits; auto. intros _. repeat constructor. }
  assert (y <> h) by (eapply not_end with (a := [x]); exact W).
  cbn [hd]. destruct (Nat.eqb_spec y h); [easy|].
  set (L := x :: y :: l) in *.
  eapply wp_bind_ret; [reflexivity|].
  apply (wf_fill _ _ _ 0) in W.
  destruct (init_spec _ _ _ _ W) as (s1 & E1 & W1 & F1). destruct F1 as [_ F1].
  eapply wp_bind_ret; [exact E1|].
  eapply wp_bind_ret; [apply counter_ok; lia|].
  replace (digits + 1) with (S digits) in W1 by lia. cbn [seq map app] in W1.
  destruct (init_spec _ _ _ _ W1) as (s2 & E2 & W2 & F2). destruct F2 as [_ F2].
  eapply wp_bind_ret; [exact E2|].
  assert (I : INV h rs ls L s2 L [] [[]]).
  { split; [|splits].
    - cbn [crings length app]. replace (digits + 1 - 1) with digits by lia.
      eapply wf_perm; [exact W2|]. rewrite (perm_swap [cnt 0]), (perm_swap (h :: L)).
      rewrite (perm_swap [cnt 0]). rewrite (perm_swap [carry]). reflexivity.
    - rewrite F2, F1. reflexivity.
    - cbn. lia.
    - cbn. rewrite app_nil_r. reflexivity. }
  apply wp_try.
  assert (FIN : forall s' rest a, wf s' ((h :: rest) :: [carry] :: crings 0 (map (fun _ : list node => []) a) ++ rs)
       (map cnt (seq (length a) (digits + 1 - length a)) ++ ls) -> length a <= digits + 1 ->
       wf s' ((h :: rest) :: rs) (carry :: map cnt (seq 0 (digits + 1)) ++ ls)).
  { intros s' rest a W3 La.
    eapply wf_perm in W3; [|apply perm_swap]. apply drop_ring in W3. cbn [app] in W3.
    eapply wf_perm in W3; [|apply Permutation_middle].
    apply drop_nils in W3.
    2:{ clear. induction a; cbn; auto. }
    rewrite map_length in W3. eapply wf_loose_perm; [exact W3|].
    symmetry. replace (digits + 1) with (length a + (digits + 1 - length a)) at 1 by lia.
    rewrite seq_app, map_app, <- app_assoc. cbn [Nat.add].
    apply (Permutation_middle _ _ carry). }
  assert (HND : forall s', EX h rs ls L s' ->
    wp (cn <- get_next carry;;
        relink_range h cn carry;;;
        fill <- get_fill;; sort_restore digits cnt (S fill) 0 h;;; throw)
      (fun (_ : unit) s' => exists l', wf s' ((h :: l') :: rs) (carry :: map cnt (seq 0 (digits + 1)) ++ ls) /\
                  Permutation l' L /\ srt l')
     (fun s' => thrown s' /\ exists l', wf s' ((h :: l') :: rs) (carry :: map cnt (seq 0 (digits + 1)) ++ ls) /\
                  Permutation l' L) s').
  { intros s' (T & rest & c & cs & (W3 & Lc & Ld & P)).
    assert (W4 := wf_perm _ _ _ _ W3 (perm_swap _ _ _)).
    eapply wp_begin; [exact W4|].
    rewrite <- (app_nil_r c), <- (app_nil_r rest) in W4.
    destruct (relink_range_across s' carry [] c [] h rest [] _ _ W4) as (s3 & E3 & W5 & F3).
    rewrite !app_nil_r in *. cbn [hd app] in *. eapply wp_bind_ret; [exact E3|].
    destruct F3 as [T3 F3].
    eapply wp_bind_ret; [reflexivity|]. rewrite F3.
    replace (S (fil s')) with (length cs) by lia.
    apply wp_bind. apply (sort_restore_wp h rs ls cs [] (rest ++ c)); auto.
    - cbn [length Nat.add map crings app]. eapply wf_perm; [exact W5|]. apply perm_swap.
    - intros s4 T4 W6. apply wp_throw. cbn [length Nat.add app] in W6.
      split; [destruct T as (k & ? & ?); exists k; split; congruence|].
      exists ((rest ++ c) ++ concat cs). split; [|perm].
      eapply FIN; eauto. }
  apply wp_bind. eapply wp_conseq.
  - apply (sort_fill_wp h rs ls L Vl fuel fuel L [[]] s2); auto; try easy.
    + cbn; auto.
    + constructor; auto. intros _. constructor.
    + cbn in *. lia.
    + cbn in *. lia.
  - intros u0 s3 (cs & I3 & S3 & L3 & Le). cbn beta. clear I.
    destruct cs as [|c0 cs]; [cbn in Le; lia|].
    inversion S3 as [|? ? Sc0 Scs]; subst.
    apply wp_bind. eapply wp_conseq.
    + apply (sort_gather_wp h rs ls L Vl cs [] c0 s3 fuel); auto.
      * intros ->. cbn in Le. lia.
      * destruct cs; auto; cbn in Le; lia.
      * destruct I3 as (_ & _ & Ld & _). cbn in Ld. cbn in *. lia.
    + intros u1 s4 (a & r & I4 & Fa & Sr & La). cbn beta.
      eapply wp_bind_ret; [reflexivity|].
      replace (fil s4 - 1) with (length a) by lia.
      destruct I4 as (W4 & Lc4 & Ld4 & P4).
      rewrite app_length in Ld4. cbn [length] in Ld4.
      eapply wp_bind_ret; [apply counter_ok; lia|].
      assert (RP : forall u v, Permutation
        ((h :: u) :: [carry] :: crings 0 (a ++ [v; []]) ++ rs)
        ((h :: u) :: (cnt (length a) :: v) :: [carry] :: crings 0 a ++ [cnt (S (length a))] :: rs)).
      { intros u v. apply perm_skip. rewrite crings_app. cbn [crings Nat.add]. rewrite <- app_assoc. cbn [app].
        rewrite <- Permutation_middle. apply perm_swap. }
      assert (W5 := wf_perm _ _ _ _ W4 (RP [] r)).
      destruct (swap_spec _ _ _ _ _ _ _ W5) as (s5 & E5 & W6 & F5).
      unfold wp. rewrite E5. exists r. splits; auto.
      * apply (FIN s5 r (a ++ [[]; []])); [|rewrite app_length; cbn; lia].
        assert (Ea : map (fun _ : list node => []) (a ++ [[]; []]) = a ++ [[]; @nil node]).
        { rewrite map_app. cbn. f_equal. clear -Fa. induction Fa as [|? ? -> F IH]; cbn; auto. now rewrite IH. }
        rewrite Ea. rewrite app_length in W6 |- *. cbn [length] in *.
        eapply wf_perm; [exact W6|]. symmetry. apply RP.
      * rewrite !concat_app in P4. cbn [concat app] in P4.
        assert (concat a = []) as Ec.
        { clear -Fa. induction Fa as [|? ? -> F IH]; auto. }
        rewrite Ec in P4. cbn in P4. now rewrite app_nil_r in P4.
    + intros s4 H4. apply HND; auto.
  - intros s3 H3. apply HND; auto.
Qed.
End Srt.
