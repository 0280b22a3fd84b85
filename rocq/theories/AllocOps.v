(** Every operation of Alloc.v returns each block to the allocator it comes from, in the situations described by [sane]. *)
From Verif Require Import Prelude Alloc AllocProofs.
Set Implicit Arguments.

Section Ops.
Variable tr : traits.
Notation CC := (list (nat * cont)).
Notation HH := (list (nat * handle)).
Notation XX := (list (nat * nat)).
Notation T := (T tr).
Notation sane := (sane tr).
Notation free := (free tr).

Lemma blocks_nil c : cnodes c = [] -> blocks c = bbs c.
Proof. unfold blocks. intros ->. apply app_nil_r. Qed.
Lemma sane_nodes c l : sane c -> sane (with_nodes c l).
Proof. intros S. exact S. Qed.

Lemma T_unequal_move i al C H X x (Q : cont -> CC -> HH -> XX -> Prop) (E : CC -> HH -> XX -> Prop) :
  find C i = Some x ->
  (forall c, raw tr c al (cal x) -> Q c (set C i (with_nodes x [])) H (blocks c ++ X)) ->
  E C H X -> E (set C i (with_nodes x [])) H X -> T C H X (unequal_move tr i al) Q E.
Proof.
  intros F K1 K2 K3. apply T_bind, T_get with (c := x); auto. intros Sx. apply T_bind, T_base_new; auto. intros c R N.
  apply T_try, T_bind, T_clone_all.
  - intros l. apply T_bind, T_clear with (c := x); auto. intros _. apply T_perm with (X' := blocks (with_nodes c l) ++ X).
    + unfold blocks. change (bbs (with_nodes c l)) with (bbs c). cbn [with_nodes cnodes cal]. destruct R as (-> & _). pperm.
    + apply T_ret, K1. exact R.
  - apply T_bind, T_clear with (c := x); auto. intros _. apply T_bind, T_base_delete with (X' := X); auto. now apply T_throw.
Qed.
Lemma T_move_al i al C H X x (Q : cont -> CC -> HH -> XX -> Prop) (E : CC -> HH -> XX -> Prop) :
  find C i = Some x -> free \/ al = cal x ->
  (forall c x', cal c = al -> sane c -> cal x' = cal x -> Q c (set C i x') H (blocks c ++ X)) ->
  E C H X -> E (set C i (with_nodes x [])) H X -> T C H X (move_al tr i al) Q E.
Proof.
  intros F Hal K1 K2 K3. apply T_bind, T_get with (c := x); auto. intros Sx. apply T_bind, T_base_new; auto. intros c R N.
  pose proof (raw_sane R Hal) as Sc. destruct R as (R1 & R2). destruct (Nat.eqb_spec al (cal x)) as [->|Ne].
  - rewrite swap_elements_eq by (apply fit_sane; auto). apply T_bind, T_put with (c := x) (X' := blocks x ++ X); auto.
    + rewrite (blocks_nil c N). pperm.
    + apply T_ret. apply K1; auto.
  - apply T_bind, T_try, T_unequal_move with (x := x); auto.
    + intros y Ry. pose proof (raw_sane Ry Hal) as Sy. destruct Ry as (Ry & _). rewrite swap_elements_eq by (apply fit_sane; congruence).
      apply T_bind, T_destroy with (X' := blocks y ++ X).
      * rewrite (blocks_nil c N). pperm.
      * apply T_ret. apply K1; auto.
    + apply T_bind, T_base_delete with (X' := X); auto. now apply T_throw.
    + apply T_bind, T_base_delete with (X' := X); auto. now apply T_throw.
Qed.
Lemma T_move i C H X x (Q : cont -> CC -> HH -> XX -> Prop) (E : CC -> HH -> XX -> Prop) :
  find C i = Some x ->
  (forall c x', cal c = cal x -> sane c -> cal x' = cal x -> Q c (set C i x') H (blocks c ++ X)) ->
  E C H X -> T C H X (move tr i) Q E.
Proof.
  intros F K1 K2. apply T_bind, T_get with (c := x); auto. intros Sx. apply T_bind, T_base_new; auto. intros c R N.
  pose proof (raw_sane R (or_intror eq_refl)) as Sc. destruct R as (R1 & R2).
  rewrite swap_elements_eq by (apply fit_sane; auto). apply T_bind, T_put with (c := x) (X' := blocks x ++ X); auto.
  - rewrite (blocks_nil c N). pperm.
  - apply T_ret. apply K1; auto.
Qed.
Lemma T_copy_assign i j C H t x (Q : unit -> CC -> HH -> XX -> Prop) (E : CC -> HH -> XX -> Prop) :
  find C i = Some t -> find C j = Some x -> free \/ pocca tr = true \/ cal t = cal x ->
  (forall c, cal c = (if pocca tr then cal x else cal t) -> Q tt (set C i c) H []) -> E C H [] -> T C H [] (copy_assign tr i j) Q E.
Proof.
  intros F1 F2 G K1 K2. apply T_bind, T_get with (c := t); auto. intros St. apply T_bind, T_get with (c := x); auto. intros Sx.
  apply T_bind, T_copy_al; auto. intros y R.
  assert (Sy : sane y). { apply (raw_sane R). destruct G as [G|[G|G]]; auto; [rewrite G; auto|]. right. now destruct (pocca tr). }
  rewrite swap_true_eq by (destruct St, Sy; congruence). apply T_bind, T_put with (c := t) (X' := blocks t ++ []); auto.
  - pperm.
  - apply T_destroy with (X' := []); auto. apply K1. apply R.
Qed.
Lemma T_move_assign i j C H t x (Q : unit -> CC -> HH -> XX -> Prop) (E : CC -> HH -> XX -> Prop) :
  find C i = Some t -> find C j = Some x -> free \/ pocma tr = true \/ cal t = cal x ->
  (pocma tr = true \/ cal t = cal x -> Q tt (set (set C i x) j t) H []) ->
  (pocma tr = false -> cal t <> cal x -> forall c x', cal c = cal t -> cal x' = cal x -> Q tt (set (set C j x') i c) H []) ->
  E C H [] -> E (set C j (with_nodes x [])) H [] -> T C H [] (move_assign tr i j) Q E.
Proof.
  intros F1 F2 G K1 K2 K3 K4. apply T_bind, T_get with (c := t); auto. intros St. apply T_bind, T_get with (c := x); auto. intros Sx.
  destruct (pocma tr) eqn:P.
  - apply T_swap_ids with (t := t) (x := x); auto. intros _ _. apply swap_true_eq. destruct St, Sx; congruence.
  - destruct (Nat.eqb_spec (cal t) (cal x)) as [Ec|Ne].
    + apply T_swap_ids with (t := t) (x := x); auto. intros _ _. apply swap_false_eq, (@fit_false tr); auto.
    + apply T_bind, T_move_al with (x := x); auto; [destruct G as [G|[G|G]]; [now left|discriminate|now right]|]. intros y x' Cy Sy Cx.
      assert (N : i <> j) by congruence.
      assert (F3 : find (set C j x') i = Some t) by now rewrite find_set_ne.
      apply T_bind, T_get with (c := t); auto. intros _. rewrite swap_false_eq by (apply (@fit_false tr); auto).
      apply T_bind, T_put with (c := t) (X' := blocks t ++ []); auto; [pperm|]. apply T_destroy with (X' := []); auto.
Qed.

(** ** Arrays that grow *)
Lemma spbs_replace l p x y :
  nth_error l p = Some x -> Permutation (spbs (firstn p l ++ y :: skipn (S p) l) ++ spb x) (spbs l ++ spb y).
Proof.
  intros N. rewrite <- (firstn_skipn p l) at 3. replace (skipn p l) with (x :: skipn (S p) l).
  - unfold spbs. rewrite !flat_map_app. cbn [flat_map]. pperm.
  - revert l N. induction p as [|p IH]; intros [|z l] N; try discriminate; cbn in *; [now injection N as ->|]. now apply IH.
Qed.
Lemma replace_length A (l : list A) p x y : nth_error l p = Some x -> length (firstn p l ++ y :: skipn (S p) l) = length l.
Proof. intros N. assert (p < length l) by (apply nth_error_Some; congruence). rewrite app_length, firstn_length, Nat.min_l by lia. cbn [length]. rewrite skipn_length. lia. Qed.
Lemma replace_Forall A (P : A -> Prop) (l : list A) p y : Forall P l -> P y -> Forall P (firstn p l ++ y :: skipn (S p) l).
Proof.
  intros F Y. apply Forall_app. split; [|constructor; auto]; apply Forall_forall; intros z Iz.
  - rewrite Forall_forall in F. apply F. rewrite <- (firstn_skipn p l). apply in_app_iff. auto.
  - rewrite Forall_forall in F. apply F. rewrite <- (firstn_skipn (S p) l). apply in_app_iff. auto.
Qed.
Lemma sane_replace c p x y :
  sane c -> nth_error (carr c) p = Some x -> free \/ sal y = cal c ->
  sane (mkC (cal c) (chdr c) (cnodes c) (firstn p (carr c) ++ y :: skipn (S p) (carr c))).
Proof.
  intros (L & S) N G. split; cbn [carr cal].
  - now rewrite (replace_length _ _ _ N).
  - destruct S as [S|S]; auto. destruct G as [G|G]; auto. right. now apply replace_Forall.
Qed.
Lemma sane_pocs c p x : sane c -> nth_error (carr c) p = Some x -> pocs tr = true \/ sal x = cal c.
Proof.
  intros (L & S) N. assert (Hp : p < length (carr c)) by (apply nth_error_Some; congruence).
  destruct S as [[F|[F _]]|S]; auto.
  - rewrite L, F in Hp. cbn in Hp. lia.
  - right. rewrite Forall_forall in S. apply S. eapply nth_error_In, N.
Qed.
Lemma space_swap_eq x y : pocs tr = true \/ sal x = sal y -> space_swap (pocs tr) x y = (y, x).
Proof. unfold space_swap. destruct x as [xa xd], y as [ya yd]. cbn. intros [->| ->]; [reflexivity|]. now destruct (pocs tr). Qed.

Lemma T_swap_array i p c x y C H X (Q : unit -> CC -> HH -> XX -> Prop) E :
  find C i = Some c -> nth_error (carr c) p = Some x -> sane c -> pocs tr = true \/ sal x = sal y -> free \/ sal y = cal c ->
  (forall c', cal c' = cal c -> cnodes c' = cnodes c -> Q tt (set C i c') H X) ->
  T C H (spb y ++ X)
    (let (x', y') := space_swap (pocs tr) x y in
     put i (mkC (cal c) (chdr c) (cnodes c) (firstn p (carr c) ++ x' :: skipn (S p) (carr c))) ;;; space_delete y') Q E.
Proof.
  intros F N Sc G1 G2 K. rewrite space_swap_eq by auto. apply T_bind, T_put with (c := c) (X' := spb x ++ X); auto.
  - unfold blocks, bbs. cbn [cal chdr cnodes carr]. pose proof (spbs_replace _ _ y N) as P. pperm.
  - now apply sane_replace with (x := x).
  - apply T_space_delete with (X' := X); auto.
Qed.
Lemma T_rehash i p C H X c (Q : unit -> CC -> HH -> XX -> Prop) (E : CC -> HH -> XX -> Prop) :
  find C i = Some c -> p < length (layout tr) ->
  (forall c', cal c' = cal c -> cnodes c' = cnodes c -> Q tt (set C i c') H X) -> E C H X -> T C H X (rehash tr i p) Q E.
Proof.
  intros F L K1 K2. apply T_bind, T_get with (c := c); auto. intros Sc. apply T_bind, T_space_new; auto. intros y Hy.
  destruct (nth_error (carr c) p) as [x|] eqn:N; [|apply nth_error_None in N; destruct Sc; lia].
  apply T_bind, T_try.
  assert (Z : T C H (spb y ++ X)
    (let (x', y') := space_swap (pocs tr) x y in
     put i (mkC (cal c) (chdr c) (cnodes c) (firstn p (carr c) ++ x' :: skipn (S p) (carr c))) ;;; space_delete y') Q E).
  { apply T_swap_array; auto. rewrite Hy. eapply sane_pocs; eauto. }
  assert (Z2 : T C H (spb y ++ X) (space_delete y ;;; throw)
      (fun (_ : unit) (C' : CC) (H' : HH) (X' : XX) => T C' H' X' (let (x', y') := space_swap (pocs tr) x y in
     put i (mkC (cal c) (chdr c) (cnodes c) (firstn p (carr c) ++ x' :: skipn (S p) (carr c))) ;;; space_delete y') Q E) E).
  { apply T_bind, T_space_delete with (X' := X); auto. now apply T_throw. }
  destruct (length (cnodes c) =? 0); [now apply T_ret|].
  apply T_bind, T_space_new; auto. intros h Hh. apply T_bind, T_try, T_bind, T_space_new.
  - intros q Hq. apply T_bind, T_try, T_may_throw.
    + apply T_space_delete with (X' := spb h ++ spb y ++ X); auto. apply T_space_delete with (X' := spb y ++ X); auto.
    + apply T_bind, T_space_delete with (X' := spb h ++ spb y ++ X); auto. apply T_throw.
      apply T_bind, T_space_delete with (X' := spb y ++ X); auto. now apply T_throw.
  - apply T_bind, T_space_delete with (X' := spb y ++ X); auto. now apply T_throw.
Qed.
Lemma T_set_capacity i p C H X c (Q : unit -> CC -> HH -> XX -> Prop) (E : CC -> HH -> XX -> Prop) :
  find C i = Some c -> p < length (layout tr) ->
  (forall c', cal c' = cal c -> cnodes c' = cnodes c -> Q tt (set C i c') H X) -> E C H X -> T C H X (set_capacity tr i p) Q E.
Proof.
  intros F L K1 K2. apply T_bind, T_get with (c := c); auto. intros Sc.
  destruct (nth_error (carr c) p) as [x|] eqn:N; [|apply nth_error_None in N; destruct Sc; lia].
  apply T_bind, T_space_new; auto. intros y Hy. apply T_swap_array; auto.
  rewrite Hy. destruct Sc as (_ & [S|S]); auto. right. rewrite Forall_forall in S. apply S. eapply nth_error_In, N.
Qed.
Lemma T_resize i p k C H X c (Q : unit -> CC -> HH -> XX -> Prop) (E : CC -> HH -> XX -> Prop) :
  find C i = Some c -> p < length (layout tr) ->
  (forall c', cal c' = cal c -> cnodes c' = cnodes c -> Q tt (set C i c') H X) -> E C H X -> T C H X (resize tr i p k) Q E.
Proof. intros. destruct k; [now apply T_rehash with c|now apply T_set_capacity with c]. Qed.
Lemma T_grow i ks p C H X c (Q : bool -> CC -> HH -> XX -> Prop) (E : CC -> HH -> XX -> Prop) :
  find C i = Some c -> p + length ks = length (layout tr) ->
  (forall b c', cal c' = cal c -> cnodes c' = cnodes c -> Q b (set C i c') H X) ->
  (forall c', cal c' = cal c -> cnodes c' = cnodes c -> E (set C i c') H X) -> T C H X (grow tr i p ks) Q E.
Proof.
  revert p C c. induction ks as [|k ks IH]; intros p C c F L K1 K2; cbn [grow]; cbn [length] in L.
  - assert (K1' : forall b, Q b C H X) by (intros b; rewrite <- (set_same _ _ F); auto).
    assert (K2' : E C H X) by (rewrite <- (set_same _ _ F); auto).
    apply T_bind, T_may_throw; auto. apply T_bind, T_choose. intros b. now apply T_ret.
  - apply T_bind, T_choose. intros g.
    enough (Z : forall c', cal c' = cal c -> cnodes c' = cnodes c ->
      T (set C i c') H X (may_throw ;;; b <- choose ;; if b then ret false else grow tr i (S p) ks) Q E).
    { apply T_bind. destruct g.
      - apply T_resize with (c := c); auto; [lia|]. rewrite <- (set_same _ _ F). auto.
      - apply T_ret. rewrite <- (set_same _ _ F). auto. }
    intros c' E1 E2. apply T_bind, T_may_throw; auto. apply T_bind, T_choose. intros []; [apply T_ret; auto|].
    apply IH with (c := c'); [now apply find_set_eq with c|lia| |]; intros; rewrite set_set; [apply K1|apply K2]; congruence.
Qed.

(** ** Elements *)
Lemma T_insert i C H X c (Q : unit -> CC -> HH -> XX -> Prop) (E : CC -> HH -> XX -> Prop) :
  find C i = Some c -> (forall c', cal c' = cal c -> Q tt (set C i c') H X) -> (forall c', cal c' = cal c -> E (set C i c') H X) ->
  T C H X (insert tr i) Q E.
Proof.
  intros F K1 K2. apply T_bind, T_grow with (c := c); auto. intros b c' E1 E2. pose proof (find_set_eq C i c' F) as F'.
  destruct b; [|apply T_ret; auto]. apply T_bind, T_get with (c := c'); auto. intros Sc. apply T_bind, T_allocate; auto. intros b.
  apply T_bind, T_try, T_may_throw.
  - apply T_put with (c := c') (X' := X); auto.
    + unfold blocks. change (bbs (with_nodes c' (b :: cnodes c'))) with (bbs c'). cbn [with_nodes cnodes cal nbs map]. fold (nbs (cnodes c') (cal c')). pperm.
    + rewrite set_set. auto.
  - apply T_bind, T_dealloc with (X' := X); auto. apply T_throw. auto.
Qed.
Lemma T_emplace i C H X c (Q : unit -> CC -> HH -> XX -> Prop) (E : CC -> HH -> XX -> Prop) :
  find C i = Some c -> (forall c', cal c' = cal c -> Q tt (set C i c') H X) -> (forall c', cal c' = cal c -> E (set C i c') H X) ->
  T C H X (emplace tr i) Q E.
Proof.
  intros F K1 K2. apply T_bind, T_get with (c := c); auto. intros _. apply T_bind, T_allocate; [|rewrite <- (set_same _ _ F); auto]. intros n.
  apply T_bind, T_try, T_bind, T_may_throw.
  - apply T_grow with (c := c); auto.
    + intros b c' E1 E2. pose proof (find_set_eq C i c' F) as F'. apply T_bind, T_get with (c := c'); auto. intros Sc. destruct b.
      * apply T_put with (c := c') (X' := X); auto.
        -- unfold blocks. change (bbs (with_nodes c' (n :: cnodes c'))) with (bbs c'). cbn [with_nodes cnodes cal nbs map]. fold (nbs (cnodes c') (cal c')). rewrite E1. pperm.
        -- rewrite set_set. auto.
      * rewrite E1. apply T_dealloc with (X' := X); auto.
    + intros c' E1 E2. apply T_bind, T_dealloc with (X' := X); auto. apply T_throw. auto.
  - apply T_bind, T_dealloc with (X' := X); auto. apply T_throw. rewrite <- (set_same _ _ F). auto.
Qed.
Lemma T_insert_n i n C H X c (Q : unit -> CC -> HH -> XX -> Prop) (E : CC -> HH -> XX -> Prop) :
  find C i = Some c -> (forall c', cal c' = cal c -> Q tt (set C i c') H X) -> (forall c', cal c' = cal c -> E (set C i c') H X) ->
  T C H X (insert_n tr i n) Q E.
Proof.
  revert C c. induction n as [|n IH]; intros C c F K1 K2; cbn [insert_n].
  - apply T_ret. rewrite <- (set_same _ _ F). auto.
  - apply T_bind, T_insert with (c := c); auto. intros c' E1. apply IH with (c := c'); [now apply find_set_eq with c| |]; intros; rewrite set_set; [apply K1|apply K2]; congruence.
Qed.
Lemma T_construct i al n C H (Q : unit -> CC -> HH -> XX -> Prop) (E : CC -> HH -> XX -> Prop) :
  find C i = None -> (forall c, cal c = al -> Q tt ((i, c) :: C) H []) -> E C H [] -> T C H [] (construct tr i al n) Q E.
Proof.
  intros F K1 K2. apply T_bind, T_base_new; auto. intros c R N. pose proof (raw_sane R (or_intror eq_refl)) as Sc. destruct R as (R & _).
  apply T_bind, T_new with (X' := []); auto; [now rewrite blocks_nil|].
  assert (Fi : find ((i, c) :: C) i = Some c) by (cbn; now rewrite Nat.eqb_refl).
  assert (Z : forall c', set ((i, c) :: C) i c' = (i, c') :: C) by (intros c'; cbn; now rewrite Nat.eqb_refl).
  apply T_try, T_insert_n with (c := c); auto.
  - intros c' E1. rewrite Z. apply K1. congruence.
  - intros c' E1. rewrite Z. assert (Fi' : find ((i, c') :: C) i = Some c') by (cbn; now rewrite Nat.eqb_refl).
    apply T_bind, T_get with (c := c'); auto. intros _. apply T_bind, T_drop with (c := c'); auto. intros _. cbn [del]. rewrite Nat.eqb_refl.
    apply T_bind, T_destroy with (X' := []); auto. now apply T_throw.
Qed.
Lemma T_init_assign i n C H t (Q : unit -> CC -> HH -> XX -> Prop) (E : CC -> HH -> XX -> Prop) :
  find C 0 = None -> find C i = Some t -> (forall c, cal c = cal t -> Q tt (set C i c) H []) -> E C H [] -> T C H [] (init_assign tr i n) Q E.
Proof.
  intros F0 F K1 K2. assert (Ni : 0 <> i) by congruence.
  apply T_bind, T_get with (c := t); auto. intros _.
  apply T_bind, T_base_new; auto. intros c R N. pose proof (raw_sane R (or_intror eq_refl)) as Sc. destruct R as (R & _).
  apply T_bind, T_new with (X' := []); auto; [now rewrite blocks_nil|].
  apply T_bind, T_try, T_insert_n with (c := c); auto.
  - intros c' E1. cbn [set Nat.eqb]. apply T_bind, T_get with (c := c'); auto. intros Sc'.
    assert (Fi : find ((0, c') :: C) i = Some t) by (cbn; destruct i; [congruence|assumption]).
    apply T_bind, T_get with (c := t); auto. intros St. rewrite swap_elements_eq by (apply fit_sane; congruence).
    apply T_bind, T_drop with (c := c'); auto. intros _. cbn [del Nat.eqb]. apply T_bind, T_put with (c := t) (X' := blocks t ++ []); auto; [pperm|].
    apply T_destroy with (X' := []); auto. apply K1. congruence.
  - intros c' E1. cbn [set Nat.eqb]. apply T_bind, T_get with (c := c'); auto. intros _. apply T_bind, T_drop with (c := c'); auto. intros _. cbn [del Nat.eqb].
    apply T_bind, T_destroy with (X' := []); auto. now apply T_throw.
Qed.
Lemma nbs_remove l n b a : nth_error l n = Some b -> Permutation (nbs l a) ((b, a) :: nbs (firstn n l ++ skipn (S n) l) a).
Proof.
  intros N. unfold nbs. change ((b, a) :: map (fun b => (b, a)) (firstn n l ++ skipn (S n) l)) with (map (fun b => (b, a)) (b :: firstn n l ++ skipn (S n) l)).
  apply Permutation_map. revert l N. induction n as [|n IH]; intros [|z l] N; try discriminate; cbn in *.
  - now injection N as ->.
  - specialize (IH l N). rewrite IH at 1. apply perm_swap.
Qed.
Lemma blocks_remove c n b :
  nth_error (cnodes c) n = Some b -> Permutation (blocks c) ((b, cal c) :: blocks (with_nodes c (firstn n (cnodes c) ++ skipn (S n) (cnodes c)))).
Proof.
  intros N. unfold blocks. cbn [with_nodes cnodes cal]. change (bbs (with_nodes c _)) with (bbs c). pose proof (nbs_remove _ _ (cal c) N) as P. pperm.
Qed.
Lemma blocks_add c b : blocks (with_nodes c (b :: cnodes c)) = bbs c ++ (b, cal c) :: nbs (cnodes c) (cal c).
Proof. reflexivity. Qed.
Lemma T_erase i n C H X c (Q : unit -> CC -> HH -> XX -> Prop) E :
  find C i = Some c -> (forall c', cal c' = cal c -> Q tt (set C i c') H X) -> T C H X (erase i n) Q E.
Proof.
  intros F K. apply T_bind, T_get with (c := c); auto. intros Sc. destruct (nth_error (cnodes c) n) as [b|] eqn:N.
  - pose proof (blocks_remove _ _ N) as P. apply T_bind, T_put with (c := c) (X' := (b, cal c) :: X); auto; [pperm|]. apply T_dealloc with (X' := X); auto.
  - apply T_ret. rewrite <- (set_same _ _ F). auto.
Qed.
Lemma T_extract i n h C H X c (Q : unit -> CC -> HH -> XX -> Prop) E :
  find C i = Some c -> (forall c' H', cal c' = cal c -> Q tt (set C i c') H' X) -> T C H X (extract i n h) Q E.
Proof.
  intros F K. apply T_bind, T_get with (c := c); auto. intros Sc. destruct (nth_error (cnodes c) n) as [b|] eqn:N.
  - pose proof (blocks_remove _ _ N) as P. apply T_bind, T_put with (c := c) (X' := (b, cal c) :: X); auto; [pperm|]. apply T_hnew with (X' := X); auto.
  - apply T_ret. rewrite <- (set_same _ _ F). auto.
Qed.
Lemma T_insert_handle i h C H X c x (Q : unit -> CC -> HH -> XX -> Prop) (E : CC -> HH -> XX -> Prop) :
  find C i = Some c -> find H h = Some x -> match x with Some (_, a) => a = cal c | None => True end ->
  (forall c' H', cal c' = cal c -> Q tt (set C i c') H' X) -> (forall c', cal c' = cal c -> E (set C i c') H X) ->
  T C H X (insert_handle tr i h) Q E.
Proof.
  intros F Fh G K1 K2. apply T_bind, T_hget with (c := x); auto. destruct x as [[b a]|].
  - apply T_bind, T_grow with (c := c); auto. intros ok c' E1 E2. destruct ok; [|now apply T_ret, K1].
    pose proof (find_set_eq C i c' F) as F'. apply T_bind, T_get with (c := c'); auto. intros Sc.
    apply T_bind, T_hput with (c := Some (b, a)) (X' := (b, a) :: X); auto. apply T_put with (c := c') (X' := X); auto.
    + rewrite blocks_add. unfold blocks. rewrite G, E1. pperm.
    + rewrite set_set. auto.
  - apply T_ret. rewrite <- (set_same _ _ F). auto.
Qed.
Lemma set_comm A (l : list (nat * A)) i j a b : i <> j -> set (set l i a) j b = set (set l j b) i a.
Proof.
  intros N. induction l as [|[k y] l IH]; [reflexivity|]. cbn.
  destruct (Nat.eqb_spec k i) as [->|N1].
  - apply Nat.eqb_neq in N as M. rewrite M. cbn. rewrite M, Nat.eqb_refl. reflexivity.
  - cbn. destruct (Nat.eqb_spec k j) as [->|N2]; cbn; apply Nat.eqb_neq in N1 as M; rewrite M; [reflexivity|]. now rewrite IH.
Qed.
Lemma T_transfer i j n C H X c x (Q : unit -> CC -> HH -> XX -> Prop) (E : CC -> HH -> XX -> Prop) :
  find C i = Some c -> find C j = Some x -> i <> j -> cal c = cal x ->
  (forall c' x', cal c' = cal c -> cal x' = cal x -> Q tt (set (set C j x') i c') H X) -> (forall c', cal c' = cal c -> E (set C i c') H X) ->
  T C H X (transfer tr i j n) Q E.
Proof.
  intros F Fj N G K1 K2.
  assert (K0 : forall c', cal c' = cal c -> Q tt (set C i c') H X).
  { intros c' E1. rewrite <- (set_same _ _ Fj). auto. }
  apply T_bind, T_get with (c := x); auto. intros _. destruct (nth_error (cnodes x) n) as [b|] eqn:Nb.
  - apply T_bind, T_grow with (c := c); auto. intros ok c' E1 E2. destruct ok; [|now apply T_ret, K0].
    assert (Fj' : find (set C i c') j = Some x) by (rewrite find_set_ne; auto).
    apply T_bind, T_get with (c := x); auto. intros Sx. pose proof (blocks_remove _ _ Nb) as P. set (x' := with_nodes x (firstn n (cnodes x) ++ skipn (S n) (cnodes x))) in *.
    apply T_bind, T_put with (c := x) (X' := (b, cal x) :: X); auto; [pperm|].
    assert (F' : find (set (set C i c') j x') i = Some c') by (rewrite find_set_ne by auto; now apply find_set_eq with c).
    apply T_bind, T_get with (c := c'); auto. intros Sc. apply T_put with (c := c') (X' := X); auto.
    + rewrite blocks_add. unfold blocks. rewrite <- G, <- E1. pperm.
    + replace (set (set (set C i c') j x') i (with_nodes c' (b :: cnodes c'))) with (set (set C j x') i (with_nodes c' (b :: cnodes c'))); [apply K1; auto|].
      rewrite (set_comm C c' x' N), set_set. reflexivity.
  - apply T_ret. rewrite <- (set_same _ _ F). auto.
Qed.
Lemma T_scratch i n C H X c (Q : unit -> CC -> HH -> XX -> Prop) (E : CC -> HH -> XX -> Prop) :
  find C i = Some c -> Q tt C H X -> E C H X -> T C H X (scratch i n) Q E.
Proof.
  intros F K1 K2. apply T_bind, T_get with (c := c); auto. intros _. apply T_bind, T_space_new; auto. intros x _. apply T_bind, T_try, T_may_throw.
  - apply T_space_delete with (X' := X); auto.
  - apply T_bind, T_space_delete with (X' := X); auto. now apply T_throw.
Qed.

(** ** Node handles *)
Lemma T_handle_delete C H X X' x (Q : unit -> CC -> HH -> XX -> Prop) E :
  Permutation X (hb x ++ X') -> Q tt C H X' -> T C H X (handle_delete x) Q E.
Proof.
  intros P K. destruct x as [[b a]|]; cbn in *; [apply T_dealloc with (X' := X'); auto|]. apply T_perm with (1 := P). now apply T_ret.
Qed.
Lemma T_handle_move h g C H X x (Q : unit -> CC -> HH -> XX -> Prop) E :
  find H h = Some x -> (forall H', Q tt C H' X) -> T C H X (handle_move h g) Q E.
Proof.
  intros F K. apply T_bind, T_hget with (c := x); auto. apply T_bind, T_hput with (c := x) (X' := hb x ++ X); auto. apply T_hnew with (X' := X); auto.
Qed.
Lemma T_handle_destroy h C H X x (Q : unit -> CC -> HH -> XX -> Prop) E :
  find H h = Some x -> (forall H', Q tt C H' X) -> T C H X (handle_destroy h) Q E.
Proof.
  intros F K. apply T_bind, T_hget with (c := x); auto. apply T_bind, T_hdrop with (c := x); auto. apply T_handle_delete with (X' := X); auto.
Qed.
Lemma T_handle_swap h g C H X x y (Q : unit -> CC -> HH -> XX -> Prop) E :
  find H h = Some x -> find H g = Some y ->
  pocs tr = true \/ match x, y with Some (_, a), Some (_, a') => a = a' | _, _ => True end ->
  (forall H', Q tt C H' X) -> T C H X (handle_swap tr h g) Q E.
Proof.
  intros F1 F2 G K. apply T_bind, T_hget with (c := x); auto. apply T_bind, T_hget with (c := y); auto.
  enough (Z : T C H X (hput h y ;;; hput g x) Q E).
  { destruct x as [[b a]|], y as [[b' a']|]; auto. cbn in G. destruct (pocs tr); [exact Z|]. destruct G as [G|G]; [discriminate|]. subst a'. exact Z. }
  intros s (S1 & S2 & S3 & S4). unfold wp, hput, bind. cbn. exists C, (set (set H h y) g x), X. split; auto. split; [|cbn; rewrite S3; auto].
  cbn [heap]. rewrite S1. destruct (Nat.eq_dec g h) as [->|N].
  - assert (x = y) as -> by congruence. now rewrite set_set, (set_same _ _ F1).
  - pose proof (ownh_find _ _ F1) as P1. pose proof (ownh_set _ _ y F1) as P2.
    assert (F3 : find (set H h y) g = Some y) by (rewrite find_set_ne; auto).
    pose proof (ownh_find _ _ F3) as P3. pose proof (ownh_set _ _ x F3) as P4. pperm.
Qed.
Lemma T_handle_assign h g C H X x y (Q : unit -> CC -> HH -> XX -> Prop) E :
  find H h = Some x -> find H g = Some y ->
  pocma tr = true \/ match x, y with Some (_, a), Some (_, a') => a = a' | _, _ => True end ->
  (forall H', Q tt C H' X) -> T C H X (handle_assign tr h g) Q E.
Proof.
  intros F1 F2 G K. unfold handle_assign. destruct (Nat.eqb_spec h g) as [->|N]; [now apply T_ret|].
  apply T_bind, T_hget with (c := x); auto. apply T_bind, T_hget with (c := y); auto.
  assert (W : match x, y with Some (_, a), Some (b, a') => Some (b, if pocma tr then a' else a) | _, _ => y end = y).
  { destruct x as [[b a]|], y as [[b' a']|]; auto. destruct (pocma tr); auto. destruct G as [G|G]; [discriminate|]. now rewrite G. }
  intros s (S1 & S2 & S3 & S4). pose proof (ownh_find _ _ F1) as P1. pose proof (ownh_set _ _ y F1) as P2.
  assert (F3 : find (set H h y) g = Some y) by (rewrite find_set_ne; auto).
  pose proof (ownh_find _ _ F3) as P3. pose proof (ownh_set _ _ None F3) as P4.
  assert (Z : exists s', handle_delete x s = Ret tt s' /\ Permutation (heap s' ++ hb x) (heap s) /\ cts s' = cts s /\ hds s' = hds s).
  { destruct x as [[b a]|]; cbn in *.
    - assert (P : Permutation (heap s) ((b, a) :: X ++ own C ++ ownh (del H h))) by (clear P2 P3 P4; pperm).
      destruct (remove1_perm P) as (l & R & P'). unfold deallocate. rewrite R. eexists. split; [reflexivity|]. cbn. split; auto. clear - P P'. pperm.
    - eexists. split; [reflexivity|]. rewrite app_nil_r. auto. }
  destruct Z as (s' & R & P & E1 & E2). unfold wp, bind. rewrite R. unfold hput. cbn. exists C, (set (set H h y) g None), X. split; auto. split; [|cbn; rewrite E1, E2, S3; split; [auto|split; [f_equal; f_equal; exact W|auto]]].
  cbn [heap]. cbn [hb] in P4. clear W G. pperm.
Qed.
End Ops.
