(** Remaining operations of sequenced indices: clear, copy, and the statements
    of the user-code operations in terms of [heap_is]. *)
From Verif Require Import Prelude SeqModel SeqSpec SeqHeap SeqProofs SeqUser SeqSort.

(** ** delete_all_nodes_ *)
Lemma delete_loop_spec h : forall l x s fuel,
  follow (nx s) x (l ++ [h]) -> NoDup (x :: l) -> ~ In h (x :: l) -> length l + 1 < fuel ->
  (forall y, In y (x :: l) -> alloc s y) ->
  exists s', s_delete_all_loop fuel h x s = Ret tt s' /\ fr s s' /\
    (forall y, In y (x :: l) -> nx s' y = None /\ pr s' y = None) /\
    (forall y, ~ In y (x :: l) -> nx s' y = nx s y /\ pr s' y = pr s y).
Proof.
  induction l as [|y l IH]; intros x s fuel F N Nh L A; (destruct fuel as [|fuel]; [cbn in L; lia|]);
    cbn [s_delete_all_loop]; destruct (Nat.eqb_spec x h) as [->|D]; [cbn in Nh; tauto| |cbn in Nh; tauto|].
  - cbn in F. destruct F as [F _].
    unfold bind, get_next, free. rewrite F. rewrite F. cbn [nx pr tk fil]. destruct fuel; [cbn in L; lia|].
    cbn [s_delete_all_loop]. rewrite Nat.eqb_refl. eexists. split; [reflexivity|].
    split; [split; reflexivity|]. cbn [nx pr]. split.
    + intros y [->|[]]. now rewrite !upd_eq.
    + intros y Hy. rewrite !upd_neq; auto; intros ->; apply Hy; cbn; auto.
  - cbn in F. destruct F as [F1 F].
    unfold bind, get_next at 1. rewrite F1. unfold free. rewrite F1.
    set (s1 := mkS (upd (nx s) x None) (upd (pr s) x None) (tk s) (fil s)).
    assert (Nx : ~ In x (y :: l)) by (inversion_clear N; auto).
    destruct (IH y s1 fuel) as (s' & E & Fr & G1 & G2).
    + assert (Q : forall m z, follow (nx s) z (m ++ [h]) -> ~ In x (z :: m) -> follow (nx s1) z (m ++ [h])).
      { clear. induction m as [|b m IHm]; intros z H Hn; cbn in *.
        - destruct H as [H _]. split; auto. unfold upd. destruct (Nat.eqb_spec z x); auto. subst; tauto.
        - destruct H as [H1 H2]. split.
          + unfold upd. destruct (Nat.eqb_spec z x); auto. subst; tauto.
          + apply IHm; auto; tauto. }
      apply Q; auto.
    + now inversion_clear N.
    + intros I. apply Nh. right. exact I.
    + cbn in *. lia.
    + intros z Hz. destruct (A z) as [A1 A2]; [right; auto|].
      split; cbn; rewrite upd_neq; auto; intros ->; auto.
    + exists s'. rewrite E. destruct Fr as [R1 R2]. split; [reflexivity|]. split; [split; auto|]. split.
      * intros z [->|Hz]; [|auto]. destruct (G2 z Nx) as [-> ->]. cbn. now rewrite !upd_eq.
      * intros z Hz. destruct (G2 z) as [-> ->]; [cbn in *; tauto|]. cbn.
        rewrite !upd_neq; auto; intros ->; apply Hz; cbn; auto.
Qed.

Lemma delete_all_spec s h l rs ls fuel :
  wf s ((h :: l) :: rs) ls -> length l + 1 < fuel ->
  exists s', s_delete_all fuel h s = Ret tt s' /\
    (forall y, In y l -> nx s' y = None /\ pr s' y = None) /\
    (forall y, ~ In y l -> nx s' y = nx s y /\ pr s' y = pr s y).
Proof.
  intros W L. unfold s_delete_all.
  assert (B := begin_at _ _ _ _ _ W). assert (N := wf_nodup _ _ _ _ _ W).
  erewrite bind_ret by (unfold get_next; rewrite B; reflexivity).
  destruct l as [|x l].
  - cbn [hd]. destruct fuel; [cbn in L; lia|]. cbn. rewrite Nat.eqb_refl.
    exists s. split; auto. split; [easy|auto].
  - cbn [hd]. inversion_clear N. destruct (delete_loop_spec h l x s fuel) as (s' & E & _ & G1 & G2); auto.
    + destruct W as (Wr & _). inversion_clear Wr as [|? ? Wr1 _].
      rewrite <- seq_ring in Wr1. destruct Wr1 as [[_ Wr1] _]. exact Wr1.
    + cbn in L |- *. lia.
    + intros y Hy. eapply wf_alloc; [exact W|]. cbn [concat]. rewrite !in_app_iff. left. left. right. exact Hy.
    + exists s'. auto.
Qed.

(** ** copy_ *)
Lemma copy_loop_spec map hx : forall r s org fuel,
  follow (nx s) org (r ++ [hx]) -> ~ In hx r ->
  NoDup (map org :: List.map map r) -> NoDup (List.map map r ++ [map hx]) ->
  (forall y, In y (map org :: List.map map r ++ [map hx]) -> alloc s y) ->
  (forall y, In y (org :: r) -> ~ In y (map org :: List.map map r ++ [map hx])) ->
  length r < fuel ->
  exists s', s_copy_loop fuel map hx org (map org) s = Ret tt s' /\ fr s s' /\
    adj (R s') (map org :: List.map map r ++ [map hx]) /\
    (forall z, ~ In z (map org :: List.map map r) -> nx s' z = nx s z) /\
    (forall z, ~ In z (List.map map r ++ [map hx]) -> pr s' z = pr s z).
Proof.
  induction r as [|b r IH]; intros s org fuel F Nh N1 N2 A D L; (destruct fuel as [|fuel]; [cbn in L; lia|]).
  - cbn [s_copy_loop]. cbn in F. destruct F as [F _].
    destruct (A (map org)) as [[v1 A1] _]; [cbn; auto|].
    destruct (A (map hx)) as [_ [v2 A2]]; [cbn; auto|].
    run. rewrite Nat.eqb_refl. eexists. split; [reflexivity|].
    splits; [split; reflexivity| |..].
    + cbn. unfold R. cbn. now rewrite !upd_eq.
    + cbn. intros z Hz. rewrite upd_neq; auto.
    + cbn. intros z Hz. rewrite upd_neq; auto.
  - cbn [s_copy_loop]. cbn [List.map app] in *. cbn in F. destruct F as [F0 F].
    destruct (A (map org)) as [[v1 A1] _]; [cbn; auto|].
    destruct (A (map b)) as [_ [v2 A2]]; [cbn; auto|].
    run.
    destruct (Nat.eqb_spec b hx) as [->|Db]; [cbn in Nh; tauto|].
    set (s1 := {| nx := upd (nx s) (map org) (Some (map b)) |}).
    inversion_clear N1 as [|? ? N1a N1b]. inversion_clear N2 as [|? ? N2a N2b].
    destruct (IH s1 b fuel) as (s' & E & Fr & Ad & G1 & G2); auto.
    + assert (Q : forall m z, follow (nx s) z (m ++ [hx]) -> ~ In (map org) (z :: m) -> follow (nx s1) z (m ++ [hx])).
      { clear. induction m as [|c m IHm]; intros z H Hn; cbn in *.
        - destruct H as [H _]. split; auto. unfold upd. destruct (Nat.eqb_spec z (map org)); auto. subst; tauto.
        - destruct H as [H1 H2]. split.
          + unfold upd. destruct (Nat.eqb_spec z (map org)); auto. subst; tauto.
          + apply IHm; auto; tauto. }
      apply Q; auto. intros I. apply (D (map org)); [right; exact I|cbn; auto].
    + cbn in Nh. tauto.
    + intros y Hy. destruct (A y) as [Ay By]; [cbn in *; tauto|].
      split; cbn; unfold upd; [destruct (Nat.eqb_spec y (map org))|destruct (Nat.eqb_spec y (map b))]; eauto.
    + intros y Hy Hy'. apply (D y); cbn in *; tauto.
    + cbn in L. lia.
    + exists s'. split; [exact E|]. destruct Fr as [R1 R2]. split; [split; auto|].
      assert (M1 : nx s' (map org) = Some (map b)).
      { rewrite G1; [cbn; now rewrite upd_eq|]. exact N1a. }
      assert (M2 : pr s' (map b) = Some (map org)).
      { rewrite G2; [cbn; now rewrite upd_eq|]. exact N2a. }
      splits.
      * rewrite adj_cons2. split; [split; auto|exact Ad].
      * intros z Hz. rewrite G1; [|cbn in *; tauto]. cbn. rewrite upd_neq; auto. intros ->. apply Hz. cbn; auto.
      * intros z Hz. rewrite G2; [|cbn in *; tauto]. cbn. rewrite upd_neq; auto. intros ->. apply Hz. cbn; auto.
Qed.

Lemma copy_spec map s hx l rs ls fuel :
  wf s ((hx :: l) :: rs) (List.map map (hx :: l) ++ ls) -> length l < fuel ->
  exists s', s_copy fuel map hx (map hx) s = Ret tt s' /\
    wf s' ((map hx :: List.map map l) :: (hx :: l) :: rs) ls /\ fr s s'.
Proof.
  intros W L. pose proof W as (W1 & W2 & W3). unfold s_copy.
  assert (N := wf_nodup _ _ _ _ _ W).
  assert (Nm : NoDup (List.map map (hx :: l))).
  { apply NoDup_app_iff in W2. destruct W2 as (_ & B & _). apply NoDup_app_iff in B. tauto. }
  assert (Dis : forall y, In y ((hx :: l) ++ concat rs) -> ~ In y (List.map map (hx :: l))).
  { intros y Hy Hy'. apply NoDup_app_iff in W2. destruct W2 as (_ & _ & C). apply (C y); auto.
    rewrite in_app_iff. auto. }
  assert (Eqv : forall y, In y (map hx :: List.map map l ++ [map hx]) <-> In y (List.map map (hx :: l))).
  { intros y. cbn. rewrite in_app_iff. cbn. tauto. }
  destruct (copy_loop_spec map hx l s hx fuel) as (s' & E & Fr & Ad & G1 & G2); auto.
  - inversion_clear W1 as [|? ? Wr _]. rewrite <- seq_ring in Wr. apply Wr.
  - now inversion_clear N.
  - eapply NoDup_perm; [|exact Nm]. cbn. apply Permutation_cons_append.
  - intros y Hy. apply Eqv in Hy. eapply wf_alloc; [exact W|]. rewrite !in_app_iff. auto.
  - intros y Hy Hy'. apply Eqv in Hy'. apply (Dis y); auto. rewrite in_app_iff. auto.
  - exists s'. split; [exact E|]. split; [|exact Fr].
    assert (FrN : forall y, ~ In y (List.map map (hx :: l)) -> nx s' y = nx s y /\ pr s' y = pr s y).
    { intros y Hy. split; [apply G1; exact Hy|apply G2]. intros I. apply Hy. apply Eqv. cbn. rewrite in_app_iff in *. cbn in *; tauto. }
    split; [|split].
    + constructor; [exact Ad|]. rewrite Forall_forall in *. intros r Hr. specialize (W1 r Hr).
      assert (Ir : forall y, In y r -> In y ((hx :: l) ++ concat rs)).
      { intros y Hy. rewrite in_app_iff. destruct Hr as [<-|Hr]; auto. right. apply in_concat. eauto. }
      eapply ring_frame; [exact W1|..]; intros y Hy; apply FrN; apply Dis; auto.
    + cbn [concat]. rewrite <- !app_assoc.
      eapply NoDup_perm; [|exact W2]. cbn [concat]. rewrite <- !app_assoc.
      change (map hx :: List.map map l) with (List.map map (hx :: l)).
      set (m := List.map map (hx :: l)). generalize (hx :: l), (concat rs). intros u v. perm.
    + rewrite Forall_forall in *. intros y Hy. destruct (W3 y) as [A B]; [rewrite in_app_iff; auto|].
      destruct (FrN y) as [E1 E2].
      { intros I. apply NoDup_app_iff in W2. destruct W2 as (_ & B' & _).
        apply NoDup_app_iff in B'. destruct B' as (_ & _ & C). exact (C y I Hy). }
      split; [rewrite E1|rewrite E2]; auto.
Qed.

(** ** rearranger used by the serialization loader *)
Lemma rearranger_spec s h l1 l2 x a b rs ls (position : node) :
  wf s ((h :: l1 ++ l2) :: rs) ls -> h <> null ->
  (position = last l1 h \/ (l1 = [] /\ position = null)) -> last l1 h <> null ->
  l2 = a ++ x :: b ->
  exists s', s_rearranger h position x s = Ret tt s' /\
    wf s' ((h :: l1 ++ x :: a ++ b) :: rs) ls /\ fr s s'.
Proof.
  intros W Hn Hp Hl ->. unfold s_rearranger, increment.
  set (position' := if position =? null then h else position).
  assert (position' = last l1 h) as ->.
  { unfold position'. destruct Hp as [->|[-> ->]]; cbn.
    - destruct (Nat.eqb_spec (last l1 h) null); [easy|reflexivity].
    - reflexivity. }
  assert (nx s (last l1 h) = Some (hd h (a ++ x :: b))) as Nx.
  { destruct l1 as [|c l1] using rev_ind; [apply (begin_at _ _ _ _ _ W)|].
    rewrite last_last. rewrite <- app_assoc in W. apply (next_at _ _ _ _ _ _ _ W). }
  erewrite bind_ret by (unfold get_next; rewrite Nx; reflexivity).
  destruct a as [|y a]; cbn [app hd].
  - rewrite Nat.eqb_refl. exists s. cbn in W. splits; auto; split; reflexivity.
  - destruct (Nat.eqb_spec y x) as [->|D].
    + exfalso. assert (N := wf_nodup _ _ _ _ _ W). inversion_clear N as [|? ? _ N'].
      apply NoDup_app_iff in N'. destruct N' as (_ & N' & _). inversion_clear N' as [|? ? N2 _].
      rewrite in_app_iff in N2. cbn in N2. tauto.
    + rewrite app_assoc in W.
      apply (relink_at s h (l1 ++ y :: a) x b l1 (y :: a ++ b) rs ls); auto.
      now rewrite <- app_assoc.
Qed.

(** ** Exceptions of user code propagate *)
Section Honest.
Variable throws : nat -> bool.

(** a computation never swallows an exception: if it ends normally no call to
    user code threw; if it ends by an exception, it is that of the first (and last) call
    that threw *)
Definition honest {A} (m : SM A) : Prop := forall s,
  match m s with
  | Ret _ s' => tk s <= tk s' /\ forall k, tk s <= k < tk s' -> throws k = false
  | Exn s' => exists k, tk s' = S k /\ tk s <= k /\ throws k = true /\
                        forall j, tk s <= j < k -> throws j = false
  | UB => True
  end.
(** no user code at all *)
Definition calm {A} (m : SM A) : Prop := forall s,
  match m s with Ret _ s' => tk s' = tk s | Exn s' => False | UB => True end.

Lemma calm_honest {A} (m : SM A) : calm m -> honest m.
Proof. intros H s. specialize (H s). destruct (m s); auto; [split; [lia|intros; lia]|easy]. Qed.
Lemma calm_bind {A B} (m : SM A) (k : A -> SM B) : calm m -> (forall a, calm (k a)) -> calm (bind m k).
Proof.
  intros Hm Hk s. specialize (Hm s). unfold bind. destruct (m s) as [a s1|s1|]; auto.
  specialize (Hk a s1). destruct (k a s1); auto. congruence.
Qed.
Lemma honest_bind {A B} (m : SM A) (k : A -> SM B) : honest m -> (forall a, honest (k a)) -> honest (bind m k).
Proof.
  intros Hm Hk s. specialize (Hm s). unfold bind. destruct (m s) as [a s1|s1|]; auto.
  specialize (Hk a s1). destruct Hm as [L1 H1]. destruct (k a s1) as [b s2|s2|]; auto.
  - destruct Hk as [L2 H2]. split; [lia|]. intros j Hj.
    destruct (Nat.lt_ge_cases j (tk s1)); [apply H1|apply H2]; lia.
  - destruct Hk as (n & E & L2 & T & H2). exists n. splits; auto; [lia|]. intros j Hj.
    destruct (Nat.lt_ge_cases j (tk s1)); [apply H1|apply H2]; lia.
Qed.
Lemma honest_try {A} (m h : SM A) : honest m -> calm h -> honest (try_catch m (h ;;; throw)).
Proof.
  intros Hm Hh s. specialize (Hm s). unfold try_catch. destruct (m s) as [a s1|s1|]; auto.
  unfold bind, throw. specialize (Hh s1). destruct (h s1); auto; [|easy]. now rewrite Hh.
Qed.
Lemma calm_ret {A} (a : A) : calm (ret a). Proof. intros s. reflexivity. Qed.
Lemma calm_ub {A} : calm (@ub _ A). Proof. intros s. exact I. Qed.
Lemma calm_gn x : calm (get_next x). Proof. intros s. unfold get_next. destruct (nx s x); auto. Qed.
Lemma calm_gp x : calm (get_prior x). Proof. intros s. unfold get_prior. destruct (pr s x); auto. Qed.
Lemma calm_sn x v : calm (set_next x v). Proof. intros s. unfold set_next. destruct (nx s x); auto. Qed.
Lemma calm_sp x v : calm (set_prior x v). Proof. intros s. unfold set_prior. destruct (pr s x); auto. Qed.
Lemma calm_free x : calm (free x). Proof. intros s. unfold free. destruct (nx s x); auto. Qed.
Lemma calm_gf : calm get_fill. Proof. intros s. reflexivity. Qed.
Lemma calm_sf n : calm (set_fill n). Proof. intros s. reflexivity. Qed.
Lemma calm_if {A} (b : bool) (m n : SM A) : calm m -> calm n -> calm (if b then m else n).
Proof. destruct b; auto. Qed.
Lemma honest_if {A} (b : bool) (m n : SM A) : honest m -> honest n -> honest (if b then m else n).
Proof. destruct b; auto. Qed.
Lemma calm_counter d c i : calm (counter d c i).
Proof. unfold counter. apply calm_if; [apply calm_ret|apply calm_ub]. Qed.
Lemma honest_ucall {A} (a : A) : honest (ucall throws a).
Proof.
  intros s. unfold ucall. destruct (throws (tk s)) eqn:T; cbn.
  - exists (tk s). splits; auto. intros; lia.
  - split; [lia|]. intros k Hk. now replace k with (tk s) by lia.
Qed.
Ltac calm := repeat (cbv beta; first [apply calm_ret | apply calm_ub | apply calm_gn | apply calm_gp | apply calm_sn | apply calm_sp
  | apply calm_free | apply calm_gf | apply calm_sf | apply calm_counter | apply calm_if | (apply calm_bind; [|intros ?])]).
Lemma calm_relink p x : calm (relink p x).
Proof. unfold relink, unlink. calm. Qed.
Lemma calm_relink_range p x y : calm (relink_range p x y).
Proof. unfold relink_range. calm. Qed.
Lemma calm_unlink x : calm (unlink x).
Proof. unfold unlink. calm. Qed.
Lemma calm_link x h : calm (link x h).
Proof. unfold link. calm. Qed.
Lemma calm_swap x h : calm (swap_links x h).
Proof. unfold swap_links, adopt. calm. Qed.
Lemma calm_init h : calm (empty_initialize h).
Proof. unfold empty_initialize. calm. Qed.
Lemma calm_erase h : calm (s_erase h).
Proof. unfold s_erase. calm. Qed.
Lemma calm_restore d c k : forall i h, calm (sort_restore d c k i h).
Proof. induction k as [|k IH]; intros i h; cbn [sort_restore]; calm; auto. Qed.

Variable V : Type.
Variable val : node -> option V.
Lemma honest_cmp lt a b : honest (cmp V val throws lt a b).
Proof. unfold cmp. destruct (val a), (val b); try apply honest_ucall; apply calm_honest, calm_ub. Qed.
Lemma honest_pcall p a : honest (pcall V val throws p a).
Proof. unfold pcall. destruct (val a); try apply honest_ucall; apply calm_honest, calm_ub. Qed.
Create HintDb honest.
Ltac hon := repeat (cbv beta; first [solve [auto with honest nocore] | apply honest_cmp | apply honest_pcall | apply honest_ucall
  | solve [apply calm_honest; calm; auto using calm_relink, calm_relink_range, calm_unlink, calm_link, calm_swap, calm_init, calm_erase]
  | apply honest_if | (apply honest_bind; [|intros ?])]).
Lemma honest_remove fuel p h : honest (s_remove V val throws fuel p h).
Proof.
  unfold s_remove, s_begin. hon. revert a. induction fuel as [|f IH]; intros a; cbn [s_remove_loop]; unfold increment; hon; auto.
Qed.
Lemma honest_unique fuel p h : honest (s_unique V val throws fuel p h).
Proof.
  unfold s_unique, s_begin. hon. revert a. induction fuel as [|f IH]; intros a; cbn [s_unique_loop]; unfold increment; hon; auto.
Qed.
Lemma honest_collate fuel lt x y : honest (collate V val throws fuel lt x y).
Proof.
  unfold collate. hon. revert a a0. induction fuel as [|f IH]; intros a b; cbn [collate_loop]; hon; auto.
Qed.
#[local] Hint Resolve honest_collate : honest.
Lemma honest_transfer allow h x : honest (transfer throws allow h x).
Proof. unfold transfer. hon. Qed.
#[local] Hint Resolve honest_transfer : honest.
Lemma honest_transfer_range allow fuel h : forall x y, honest (transfer_range throws allow fuel h x y).
Proof.
  induction fuel as [|f IH]; intros x y; cbn [transfer_range]; unfold increment; hon; auto using honest_transfer.
Qed.
#[local] Hint Resolve honest_transfer_range : honest.
Lemma honest_merge allow fuel lt x y : honest (s_merge V val throws allow fuel lt x y).
Proof.
  assert (Ex : forall a, external_splice_range throws allow fuel x x a y = transfer_range throws allow fuel x a y).
  { intros a. unfold external_splice_range. now rewrite Nat.eqb_refl. }
  unfold s_merge, s_begin. apply honest_if; [hon|].
  apply honest_bind; [hon|intros a]. apply honest_bind; [hon|intros b].
  apply honest_bind; [|intros c; rewrite Ex; apply honest_transfer_range].
  clear Ex. revert a b. induction fuel as [|f IH]; intros a b; cbn [s_merge_loop]; unfold increment; hon; auto.
Qed.
Lemma honest_carry d c n lt : forall fuel i, honest (sort_carry V val throws d c n fuel lt i).
Proof. induction fuel as [|f IH]; intros i; cbn [sort_carry]; hon; auto using honest_collate. Qed.
#[local] Hint Resolve honest_carry : honest.
Lemma honest_fill d c n lt f0 h : forall fuel, honest (sort_fill V val throws d c n f0 fuel lt h).
Proof. induction fuel as [|f IH]; cbn [sort_fill]; hon; auto using honest_carry. Qed.
#[local] Hint Resolve honest_fill : honest.
Lemma honest_gather d n lt : forall fuel i, honest (sort_gather V val throws d n fuel lt i).
Proof. induction fuel as [|f IH]; intros i; cbn [sort_gather]; hon; auto using honest_collate. Qed.
#[local] Hint Resolve honest_gather : honest.
Lemma honest_sort d c n fuel lt h : honest (s_sort V val throws d c n fuel lt h).
Proof.
  unfold s_sort. hon.
  match goal with |- honest (try_catch ?m ?k) =>
    assert (E : forall s, try_catch m k s = try_catch m ((cn <- get_next c;; relink_range h cn c;;; fill <- get_fill;; sort_restore d n (S fill) 0 h) ;;; throw) s) end.
  { intros s. unfold try_catch. match goal with |- match ?x with _ => _ end = _ => destruct x as [|s1|] end; auto.
    unfold bind, get_fill. destruct (get_next c s1) as [? s2|s2|]; auto. destruct (relink_range h _ c s2); auto. }
  intros s. rewrite E. apply honest_try.
  - hon; auto using honest_fill, honest_gather.
  - apply calm_bind; [calm|intros ?]. apply calm_bind; [apply calm_relink_range|intros ?].
    apply calm_bind; [calm|intros ?]. apply calm_restore.
Qed.
End Honest.
