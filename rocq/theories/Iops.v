(** Operations of one index of a container which leave the elements alone: rearrangements of
    sequenced and random access indices, changes of capacity, and rehashing. *)
From Verif Require Import Prelude SeqModel SeqSpec SeqHeap SeqProofs SeqUser SeqSort SeqMore Layer LayerBase PosIdx PosOk SeqIdx.
From Verif Require Import RndModel RndProofs RndRot RndOps RndMore RndMove RndIdx Stack View ContOk ContSpec.
From Verif Require HashIdx HashSpec HashSeq HashOk.
Set Implicit Arguments.

Section I.
Variable V : Type.
Variable throws : nat -> bool.
Variable pick : list node -> node.
Variable dv : V.
Variable hd : node.
Notation layer_of := (@layer_of V throws pick hd).

(** [SortSeq]: the temporaries of sequenced_index_sort are at the addresses [carry] and [cnt i], and
    size_t has [digits] binary digits.  [SortRnd ssort]: std::stable_sort applied to a copy of the
    elements gives [ssort l], or throws.  [RemoveRnd], [UniqueRnd]: what remove_if and unique of random
    access indices do before erasing elements at the end.  [MergeRnd lt n]: what merge does once the
    elements of the other index are there, from position [n] on.  [Rehash], [Reserve] and [MaxLoad] are
    for hashed indices; see [HashIdx.policy]. *)
Inductive iop :=
| Move (o : sop)
| SortSeq (lt : V -> V -> bool) (digits : nat) (carry : node) (cnt : nat -> node)
| SortRnd (ssort : list node -> option (list node))
| Reserve (n : nat)
| Shrink
| RemoveRnd (pred : V -> bool)
| UniqueRnd (pred : V -> V -> bool)
| MergeRnd (lt : V -> V -> bool) (n : nat)
| Rehash (n : nat)
| MaxLoad (p : HashIdx.policy).

Definition tmps (digits : nat) (carry : node) (cnt : nat -> node) : list node :=
  carry :: map cnt (seq 0 (digits + 1)).
(** the local variables carry_spc and counter_spc come into existence, seq_index_ops.hpp:138-152 *)
Definition open_tmps (xs : list node) (t : sst) : sst :=
  let f := fun g y => if mem_b y xs then Some 0 else g y in mkS (f (nx t)) (f (pr t)) (SeqModel.tk t) (fil t).
(** ... and cease to exist *)
Definition close_tmps (xs : list node) (t : sst) : sst :=
  let f := fun g y => if mem_b y xs then None else g y in mkS (f (nx t)) (f (pr t)) (SeqModel.tk t) (fil t).
(** the value of a node *)
Definition vals (b : bst V) (x : node) : option V := match look (mem b) x with Some o => o | None => None end.

Section Idx.
Variable L : Layer V.
(** sort, sequenced_index.hpp:575-587; calls to the comparison are counted with all others *)
Definition q_sort (lt : V -> V -> bool) digits carry cnt : M (sst * St L) unit :=
  fun st =>
    let b := bget L (snd st) in
    let xs := tmps digits carry cnt in
    let t := fst st in
    let t := open_tmps xs (mkS (nx t) (pr t) (tk b) (fil t)) in
    match s_sort V (vals b) throws digits carry cnt (cget L (snd st) + digits + 3) lt hd t with
    | Ret u t => Ret u (close_tmps xs t, adv L (SeqModel.tk t) (snd st))
    | Exn t => Exn (close_tmps xs t, adv L (SeqModel.tk t) (snd st))
    | UB => UB
    end.
(** random_access_index_remove and random_access_index_unique as called in
    random_access_index.hpp:624-662, random_access_index_inplace_merge in 664-686 *)
Definition n_remove (pred : V -> bool) : M (rst * St L) node :=
  fun st => sync L (ptr_remove throws (on1 V (vals (bget L (snd st))) pred)) st.
Definition n_unique (pred : V -> V -> bool) : M (rst * St L) node :=
  fun st => sync L (ptr_unique throws (on2 V (vals (bget L (snd st))) pred)) st.
Definition n_merge (lt : V -> V -> bool) (n : nat) : M (rst * St L) unit :=
  fun st => (p <- ownM (a_at n) ;; sync L (inplace_merge throws (on2 V (vals (bget L (snd st))) lt) p)) st.
End Idx.

(** one operation on an index: relocate, reverse, rearrange, splice (within the container), sort of
    sequenced_index.hpp:430-640 and random_access_index.hpp:560-753, reserve and shrink_to_fit of
    random_access_index.hpp:279-289; rehash, reserve and max_load_factor of hashed_index.hpp:729-748 *)
Definition irun (c : code V) (L : Layer V) (o : iop) : M (St (layer_of c L)) unit :=
  match c return M (St (layer_of c L)) unit with
  | Ordered _ _ _ _ _ => ub
  | Sequenced _ _ _ =>
    match o with
    | Move o => n <- supM (size L) ;; ownM (exec_sop (n + 1) hd o)
    | SortSeq lt digits carry cnt => q_sort L lt digits carry cnt
    | _ => ub
    end
  | RandomAccess _ _ =>
    match o with
    | Move o => ownM (exec_rop o)
    | SortRnd ssort => sync L (ptr_sort throws ssort)
    | Reserve n => sync L (reserve throws n)
    | Shrink => sync L (shrink_to_fit throws)
    | RemoveRnd pred => n_remove L pred ;;; ret tt
    | UniqueRnd pred => n_unique L pred ;;; ret tt
    | MergeRnd lt n => n_merge L lt n
    | _ => ub
    end
  | Hashed key eq hash uniq _ _ _ =>
    match o with
    | Rehash n => HashIdx.rehash throws pick key hash uniq hd L n
    | Reserve n => HashIdx.reserve throws pick key hash uniq hd L n
    | MaxLoad p => HashIdx.max_load_factor L p
    | _ => ub
    end
  end.
(** preconditions for an index whose sequence is [l] *)
Definition iallowed (c : code V) (l : list node) (o : iop) : Prop :=
  match c, o with
  | Sequenced _ _ _, Move o => moving o = true /\ exists l', sstep hd o (l, []) (l', [])
  | RandomAccess _ _, Move o => moving o = true /\ exists l', sstep hd o (l, []) (l', [])
  | Sequenced _ _ _, SortSeq lt digits carry cnt =>
      NoDup (hd :: l ++ tmps digits carry cnt) /\ length l < 2 ^ digits
  | RandomAccess _ _, SortRnd ssort => forall l', ssort l = Some l' -> Permutation l l'
  | RandomAccess _ _, (Reserve _ | Shrink | RemoveRnd _ | UniqueRnd _) => True
  | RandomAccess _ _, MergeRnd _ n => n <= length l
  | Hashed _ _ _ _ _ _ _, (Rehash _ | Reserve _ | MaxLoad _) => True
  | _, _ => False
  end.
(** the new sequence after a normal return *)
Definition ieffect (c : code V) (val : node -> V) (o : iop) (l l' : list node) : Prop :=
  match o with
  | Move o => sstep hd o (l, []) (l', [])
  | SortSeq lt _ _ _ => Permutation l l' /\
      (strict_weak_order lt -> StronglySorted (fun x y => lt (val y) (val x) = false) l')
  | SortRnd ssort => length l <= 1 /\ l' = l \/ ssort l = Some l'
  | Reserve _ | Rehash _ => untouched c val l l'
  | Shrink | MaxLoad _ => l' = l
  | RemoveRnd pred => exists d, l' = filter (fun x => negb (pred (val x))) l ++ d /\ Permutation d (filter (fun x => pred (val x)) l)
  | UniqueRnd pred => exists d, l' = firsts_of (fun x y => pred (val x) (val y)) l ++ d /\ Permutation l l'
  | MergeRnd lt n => l' = merged (fun x y => lt (val x) (val y)) (firstn n l) (skipn n l)
  end.
(** ... and after an exception *)
Definition ieffect_exn (o : iop) (l l' : list node) : Prop :=
  match o with
  | SortSeq _ _ _ _ | RemoveRnd _ | UniqueRnd _ => Permutation l l'
  | _ => l' = l
  end.

Lemma moving_perm o l l' : moving o = true -> sstep hd o (l, []) (l', []) -> Permutation l l'.
Proof.
  intros M St. inversion St; subst; try discriminate M.
  - reflexivity.
  - transitivity (i :: a ++ b); [perm|]. rewrite H1. perm.
  - transitivity (seg ++ a ++ b); [perm|]. rewrite H1. perm.
  - apply Permutation_rev.
  - auto.
  - auto.
Qed.
Lemma ieffect_perm c val o l l' : iallowed c l o -> ieffect c val o l l' -> Permutation l l'.
Proof.
  destruct c, o; cbn; try easy.
  - intros (M & _) St. now apply moving_perm in St.
  - intros (M & _) St. now apply moving_perm in St.
  - intros H [(_ & ->)|E]; auto.
  - now intros _ ->.
  - now intros _ ->.
  - intros _ (d & -> & P). rewrite P. clear. induction l as [|x l IH]; cbn; auto. destruct (pred (val x)); cbn.
    + rewrite IH at 1. perm.
    + now constructor.
  - now intros _ (d & -> & P).
  - intros _ ->. rewrite merged_perm. now rewrite firstn_skipn.
  - now intros _ (P & _).
  - now intros _ (P & _).
  - now intros _ ->.
Qed.
Lemma ieffect_exn_perm o l l' : ieffect_exn o l l' -> Permutation l l'.
Proof. destruct o; cbn; auto; now intros ->. Qed.

(** ** sort of a sequenced index within a container *)
Lemma wf_open s l xs : seq_has hd s l -> NoDup (hd :: l ++ xs) -> wf (open_tmps xs s) [hd :: l] xs.
Proof.
  intros (R & _ & _) N. inversion R as [|? ? R1 _]; subst.
  assert (D : forall a, In a (hd :: l) -> mem_b a xs = false).
  { intros a I. destruct (mem_b a xs) eqn:E; auto. apply mem_b_in in E. exfalso.
    change (hd :: l ++ xs) with ((hd :: l) ++ xs) in N. apply NoDup_app_iff in N as (_ & _ & N). eapply N; eauto. }
  split; [|split].
  - constructor; [|constructor]. eapply ring_frame; [exact R1|]. intros a I. cbn [open_tmps nx pr]. now rewrite (D a I).
  - cbn. now rewrite app_nil_r.
  - apply Forall_forall. intros x I. apply mem_b_in in I. unfold alloc. cbn. rewrite I. eauto.
Qed.
Lemma wf_close s l xs : wf s [hd :: l] xs -> seq_has hd (close_tmps xs s) l.
Proof.
  intros (R & N & _). inversion R as [|? ? R1 _]; subst. cbn in N. rewrite app_nil_r in N.
  assert (D : forall a, In a (hd :: l) -> mem_b a xs = false).
  { intros a I. destruct (mem_b a xs) eqn:E; auto. apply mem_b_in in E. exfalso.
    change (hd :: l ++ xs) with ((hd :: l) ++ xs) in N. apply NoDup_app_iff in N as (_ & _ & N). eapply N; eauto. }
  split; [|split; [|constructor]].
  - constructor; [|constructor]. eapply ring_frame; [exact R1|]. intros a I. cbn [close_tmps nx pr]. now rewrite (D a I).
  - cbn. rewrite !app_nil_r. change (hd :: l ++ xs) with ((hd :: l) ++ xs) in N. now apply NoDup_app_iff in N as (N & _).
Qed.

Section Ok.
Variable L : Layer V.
Variable S : Spec V.
Variable rep : St L -> AV S -> Prop.
Variable shell : St L -> Prop.
Hypothesis O : OK throws pick dv hd L S rep shell.
Hypothesis pick_ok : forall l, ~ In (pick l) (null :: l).

Lemma adv_ok s a n : rep s a -> rep (adv L n s) a /\ cget L (adv L n s) = cget L s /\
  mem (bget L (adv L n s)) = mem (bget L s) /\ tk (bget L (adv L n s)) = n.
Proof. intros R. unfold adv. rewrite (o_bb O), (o_cb O). splits; auto. now apply (o_repb O). Qed.

(** what an operation on the index [c] does: [a'] are the new contents of this index *)
Record idone (c : code V) (st : St (layer_of c L)) (a : AV (cons_spec (kind_of hd c) S)) (E : list node -> list node -> Prop)
  (H : nat -> nat -> Prop) (st' : St (layer_of c L)) (a' : kv (kind_of hd c)) : Prop := mkD {
  d_rep : @rep_of V throws pick hd c L S rep st' (a', snd a);
  d_eff : E (kel (kind_of hd c) (fst a)) (kel (kind_of hd c) a');
  d_ok : kok (kind_of hd c) (val dv (bget (layer_of c L) st)) a';
  d_cnt : cget (layer_of c L) st' = cget (layer_of c L) st;
  d_mem : mem (bget (layer_of c L) st') = mem (bget (layer_of c L) st);
  d_tk : H (tk (bget (layer_of c L) st)) (tk (bget (layer_of c L) st')) }.

Lemma vals_eq b x : live b x -> vals b x = Some (val dv b x).
Proof. intros (v & E). unfold vals, val. now rewrite E. Qed.
Lemma filter_vals b (f : V -> bool) l : (forall x, In x l -> live b x) ->
  filter (on1 V (vals b) f) l = filter (fun x => f (val dv b x)) l /\
  filter (fun x => negb (on1 V (vals b) f x)) l = filter (fun x => negb (f (val dv b x))) l.
Proof.
  intros H. split; apply filter_ext_in; intros x I; unfold on1; now rewrite vals_eq by auto.
Qed.
Lemma firsts_vals b (f : V -> V -> bool) : forall l m, (forall x, In x (m :: l) -> live b x) ->
  firsts (on2 V (vals b) f) m l = firsts (fun x y => f (val dv b x) (val dv b y)) m l.
Proof.
  induction l as [|x l IH]; intros m H; cbn; auto. unfold on2 at 1. rewrite !vals_eq by (apply H; cbn; auto).
  destruct (f (val dv b m) (val dv b x)).
  - apply IH. intros y [<-|I]; apply H; cbn; auto.
  - f_equal. apply IH. intros y I. apply H. now right.
Qed.
Lemma merged_vals b (f : V -> V -> bool) : forall l1 l2, (forall x, In x (l1 ++ l2) -> live b x) ->
  merged (on2 V (vals b) f) l1 l2 = merged (fun x y => f (val dv b x) (val dv b y)) l1 l2.
Proof.
  induction l1 as [|x l1 IH]; intros l2 H; [now rewrite !merged_nil|].
  induction l2 as [|y l2 IH2]; [now rewrite !merged_nil2|].
  rewrite !merged_cons. unfold on2 at 1. rewrite !vals_eq by (apply H; cbn; rewrite ?in_app_iff; cbn; auto).
  destruct (f (val dv b y) (val dv b x)); f_equal.
  - apply IH2. intros z I. apply H. cbn in *. rewrite in_app_iff in *. cbn. intuition.
  - apply IH. intros z I. apply H. now right.
Qed.
Theorem irun_ok c o st a lk : code_ok c ->
  @rep_of V throws pick hd c L S rep st a ->
  let l := kel (kind_of hd c) (fst a) in
  iallowed c l o -> inv hd (bget (layer_of c L) st) (l :: els S (snd a)) lk -> cget (layer_of c L) st = length lk ->
  aok (cons_spec (kind_of hd c) S) (val dv (bget (layer_of c L) st)) a ->
  wp (irun c L o)
     (fun _ st' => exists a', idone c st a (ieffect c (val dv (bget (layer_of c L) st)) o) (quiet throws) st' a')
     (fun st' => exists a', idone c st a (ieffect_exn o) (fun n m => n <= m) st' a') st.
Proof.
  intros CO R l Al Iv Cg Ao.
  assert (Sz : length l <= cget (layer_of c L) st) by (rewrite Cg; apply inv_hd, Permutation_length in Iv; now rewrite Iv).
  assert (Lv : forall x, In x l -> live (bget (layer_of c L) st) x).
  { intros x I. apply (i_live Iv). apply inv_hd in Iv. eapply Permutation_in; eauto. }
  destruct c as [K key lt uniq rk junk|jn jp|ju|K key eq hash uniq jh n0 pol]; [now destruct o| | |];
    [clear Iv Cg Ao CO|clear Iv Cg Ao CO|clear Sz Lv]; [| |assert (Ao' := Ao); destruct Ao' as (Ko & _); destruct o; try easy; clear Al];
    [destruct st as (t, s), a as (l0, a); cbn in R, l, Sz, Lv; subst l;
    destruct R as (Hs & R); cbn in Hs, R; destruct o; try easy; cbn [irun iallowed] in *..| | |].
  - (* Sequenced, Move *)
    destruct Al as (M & l' & St). apply wp_bind, wp_sup. unfold wp at 1, size. apply wp_own.
    destruct (exec_sop_spec (cget L s + 1) hd [] _ _ _ _ _ _ St Hs) as (t' & E & W' & _); [lia|].
    unfold wp. rewrite E. exists l'. split; cbn; auto; [split; auto|apply quiet_refl].
  - (* Sequenced, SortSeq *)
    destruct Al as (N & Ld). cbn in *.
    set (t1 := mkS (nx t) (pr t) (tk (bget L s)) (fil t)).
    assert (W1 : wf (open_tmps (tmps digits carry cnt) t1) [hd :: l0] (tmps digits carry cnt)) by (now apply wf_open).
    set (t2 := open_tmps (tmps digits carry cnt) t1) in *.
    assert (T2 : SeqModel.tk t2 = tk (bget L s)) by reflexivity.
    assert (W2 : wf t2 [hd :: l0] (carry :: map cnt (seq 0 (digits + 1)) ++ [])) by (rewrite app_nil_r; exact W1).
    assert (Vl : all_vals (vals (bget L s)) l0).
    { apply Forall_forall. intros x I. destruct (Lv x I) as (v & E). exists v. unfold vals. now rewrite E. }
    assert (Wp := sort_wp V (vals (bget L s)) throws lt digits carry cnt hd [] [] l0 t2 (cget L s + digits + 3) W2 Vl Ld).
    assert (Hn := honest_sort throws V (vals (bget L s)) digits carry cnt (cget L s + digits + 3) lt hd t2).
    unfold wp in *. unfold q_sort. cbn [fst snd]. fold t1. fold t2.
    rewrite app_nil_r in Wp. change (carry :: map cnt (seq 0 (digits + 1))) with (tmps digits carry cnt) in Wp.
    specialize (Wp ltac:(unfold node in *; lia)).
    destruct (s_sort V _ throws digits carry cnt _ lt hd t2) as [[] t3|t3|]; [| |exact Wp].
    + destruct Wp as (l' & W3 & P & Sr). exists l'. rewrite T2 in Hn.
      destruct (adv_ok (SeqModel.tk t3) R) as (R1 & R2 & R3 & R4).
      split; cbn; auto.
      * split; auto. now apply wf_close.
      * split; [now symmetry|]. intros SW. apply Sr, sorted_leN in SW. clear Sr. rename SW into Sr.
        assert (LV : Forall (fun x => live (bget L s) x) l').
        { apply Forall_forall. intros x I. apply Lv. eapply Permutation_in; eauto. }
        clear - Sr LV. induction Sr as [|x l Sl IH F]; constructor; inversion LV; subst; auto.
        rewrite Forall_forall in *. intros y I. destruct H1 as (vx & Ex). destruct (H2 y I) as (vy & Ey).
        unfold val. rewrite Ex, Ey. apply (F y I); unfold vals; [now rewrite Ex|now rewrite Ey].
      * rewrite R4. exact Hn.
    + destruct Wp as (_ & l' & W3 & P). exists l'. rewrite T2 in Hn.
      destruct (adv_ok (SeqModel.tk t3) R) as (R1 & R2 & R3 & R4).
      split; cbn; auto.
      * split; auto. now apply wf_close.
      * now symmetry.
      * rewrite R4. destruct Hn as (k & E1 & E2 & _). lia.
  - (* RandomAccess, Move *)
    destruct Al as (M & l' & St). apply wp_own. eapply wp_conseq; [apply (exec_rop_ok Hs M St)| |easy].
    intros ? r' (A & _). exists l'. split; cbn; auto; [split; auto|apply quiet_refl].
  - (* SortRnd *)
    assert (A : arr (adv_tk t (tk (bget L s))) (l0 ++ [hd])) by now apply arr_tk.
    assert (W := ptr_sort_ok throws ssort hd A Al). unfold wp in *. unfold sync. cbn [fst snd].
    destruct (ptr_sort throws ssort (adv_tk t (tk (bget L s)))) as [[] t'|t'|]; auto.
    + destruct W as (Q & _ & l' & A' & E). exists l'.
      destruct (adv_ok (rtk t') R) as (R1 & R2 & R3 & R4). split; cbn; auto; [split; auto|now rewrite R4].
    + destruct W as (-> & _). exists l0. cbn in *.
      destruct (adv_ok (Datatypes.S (tk (bget L s))) R) as (R1 & R2 & R3 & R4). split; cbn; auto; [split; auto|rewrite R4; lia].
      now apply arr_tk.
  - (* Reserve *)
    assert (A : arr (adv_tk t (tk (bget L s))) (l0 ++ [hd])) by now apply arr_tk.
    assert (W := reserve_ok throws n A). unfold wp in *. unfold sync. cbn [fst snd].
    destruct (reserve throws n (adv_tk t (tk (bget L s)))) as [[] t'|t'|]; auto.
    + destruct W as (Q & (A' & _) & _). exists l0.
      destruct (adv_ok (rtk t') R) as (R1 & R2 & R3 & R4). split; cbn; auto; [split; auto|now rewrite R4].
    + destruct W as (T & ->). exists l0. cbn in *.
      destruct (adv_ok (Datatypes.S (tk (bget L s))) R) as (R1 & R2 & R3 & R4). split; cbn; auto; [split; auto|rewrite R4; lia].
      now apply arr_tk.
  - (* Shrink *)
    assert (A : arr (adv_tk t (tk (bget L s))) (l0 ++ [hd])) by now apply arr_tk.
    assert (W := shrink_to_fit_ok throws A). unfold wp in *. unfold sync. cbn [fst snd].
    destruct (shrink_to_fit throws (adv_tk t (tk (bget L s)))) as [[] t'|t'|]; auto.
    + destruct W as (Q & (A' & _) & _). exists l0.
      destruct (adv_ok (rtk t') R) as (R1 & R2 & R3 & R4). split; cbn; auto; [split; auto|now rewrite R4].
    + destruct W as (T & ->). exists l0. cbn in *.
      destruct (adv_ok (Datatypes.S (tk (bget L s))) R) as (R1 & R2 & R3 & R4). split; cbn; auto; [split; auto|rewrite R4; lia].
      now apply arr_tk.
  - (* RemoveRnd *)
    assert (A : arr (adv_tk t (tk (bget L s))) (l0 ++ [hd])) by now apply arr_tk.
    assert (W := ptr_remove_ok throws (on1 V (vals (bget L s)) pred) l0 hd A). apply wp_bind. unfold n_remove, sync.
    unfold wp in *. cbn [fst snd].
    destruct (ptr_remove throws _ (adv_tk t (tk (bget L s)))) as [x t'|t'|]; auto.
    + destruct W as (Q & _ & d & A' & P & _). destruct (filter_vals pred l0 Lv) as (E1 & E2). cbn in E1, E2. rewrite E1 in P. rewrite E2 in A'.
      exists (filter (fun x => negb (pred (val dv (bget L s) x))) l0 ++ d).
      destruct (adv_ok (rtk t') R) as (R1 & R2 & R3 & R4). split; cbn; auto; [split; auto| |now rewrite R4].
      * unfold rnd_has. cbn [fst]. now rewrite <- app_assoc.
      * eauto.
    + destruct W as (Q & _ & w & A' & P). exists w. symmetry in P.
      destruct (adv_ok (rtk t') R) as (R1 & R2 & R3 & R4). split; cbn; auto; [split; auto|]. rewrite R4.
      destruct Q as (k & E1 & E2 & _). destruct E2 as (E2 & _). cbn in *. lia.
  - (* UniqueRnd *)
    assert (A : arr (adv_tk t (tk (bget L s))) (l0 ++ [hd])) by now apply arr_tk.
    assert (W := ptr_unique_ok throws (on2 V (vals (bget L s)) pred) l0 hd A). apply wp_bind. unfold n_unique, sync.
    unfold wp in *. cbn [fst snd].
    destruct (ptr_unique throws _ (adv_tk t (tk (bget L s)))) as [x t'|t'|]; auto.
    + destruct W as (Q & _ & d & A' & P & _).
      assert (E1 : firsts_of (on2 V (vals (bget L s)) pred) l0 = firsts_of (fun x y => pred (val dv (bget L s) x) (val dv (bget L s) y)) l0).
      { destruct l0 as [|m l0]; auto. now apply firsts_vals. }
      rewrite E1 in *.
      exists (firsts_of (fun x y => pred (val dv (bget L s) x) (val dv (bget L s) y)) l0 ++ d).
      destruct (adv_ok (rtk t') R) as (R1 & R2 & R3 & R4). symmetry in P. split; cbn; auto; [split; auto| |now rewrite R4].
      * unfold rnd_has. cbn [fst]. now rewrite <- app_assoc.
      * eauto.
    + destruct W as (Q & _ & w & A' & P). exists w. symmetry in P.
      destruct (adv_ok (rtk t') R) as (R1 & R2 & R3 & R4). split; cbn; auto; [split; auto|]. rewrite R4.
      destruct Q as (k & E1 & E2 & _). destruct E2 as (E2 & _). cbn in *. lia.
  - (* MergeRnd *)
    set (l1 := firstn n l0) in *. set (l2 := skipn n l0) in *. assert (E0 : l0 = l1 ++ l2) by (symmetry; apply firstn_skipn).
    assert (Ln : length l1 = n) by (apply firstn_length_le; exact Al).
    assert (A : arr (adv_tk t (tk (bget L s))) (l1 ++ l2 ++ [hd])).
    { apply arr_tk. rewrite app_assoc, <- E0. exact Hs. }
    assert (W := inplace_merge_ok throws (on2 V (vals (bget L s)) lt) l1 l2 hd A). rewrite Ln in W. cbn [rbs adv_tk] in W.
    unfold n_merge, sync, ownM, lensM, bind, a_at.
    unfold wp in *. cbn [fst snd].
    destruct (inplace_merge throws _ (rbs t + n) (adv_tk t (tk (bget L s)))) as [x t'|t'|]; auto.
    + destruct W as (Q & _ & A'). rewrite merged_vals in A' by (rewrite <- E0; exact Lv).
      eexists. destruct (adv_ok (rtk t') R) as (R1 & R2 & R3 & R4). split; cbn; auto; [split; [exact A'|auto]|now rewrite R4].
    + destruct W as (Q & E). exists l0.
      destruct (adv_ok (rtk t') R) as (R1 & R2 & R3 & R4). split; cbn; auto; [split; auto|].
      * cbn. rewrite E. unfold rnd_has. rewrite E0, <- app_assoc. now apply arr_tk.
      * rewrite R4. destruct Q as (k & E1 & E2 & _). destruct E2 as (E2 & _). cbn in *. lia.
  - (* Reserve *)
    assert (X := @HashOk.hash_rehash V K throws pick dv pick_ok key eq hash uniq hd jh L S rep shell O CO (HashIdx.ceil (HashIdx.pol (fst st)) n) st a lk R Iv Cg Ao).
    destruct st as (t, s). unfold irun, HashIdx.reserve, HashIdx.get. apply wp_bind, wp_own. unfold wp at 1.
    eapply wp_conseq; [exact X| |]; cbn beta.
    + intros ? s' (a' & R' & C' & Sm & Mm & q). exists a'. split; auto.
      * eapply HashSeq.hsame_same; [exact CO|exact Ko|exact Sm].
      * eapply (HashSpec.hsame_ok CO); [exact Sm|exact Ko].
    + intros s' (R' & C' & Mm & q). exists (fst a). split; auto; [reflexivity|]. destruct q as (k & E1 & (E2 & _) & _). cbn in *. lia.
  - (* Rehash *)
    assert (X := @HashOk.hash_rehash V K throws pick dv pick_ok key eq hash uniq hd jh L S rep shell O CO n st a lk R Iv Cg Ao).
    eapply wp_conseq; [exact X| |]; cbn beta.
    + intros ? s' (a' & R' & C' & Sm & Mm & q). exists a'. split; auto.
      * eapply HashSeq.hsame_same; [exact CO|exact Ko|exact Sm].
      * eapply (HashSpec.hsame_ok CO); [exact Sm|exact Ko].
    + intros s' (R' & C' & Mm & q). exists (fst a). split; auto; [reflexivity|]. destruct q as (k & E1 & (E2 & _) & _). cbn in *. lia.
  - (* MaxLoad *)
    destruct st as (t, s), a as (a0, a). apply wp_own. unfold wp. exists a0. split; auto; [reflexivity|apply quiet_refl].
Qed.
End Ok.

(** ** the same for the [i]-th index of a container *)
Definition lift (c : code V) (L : Layer V) {A} (m : M (St L) A) : M (St (layer_of c L)) A :=
  match c return M (St (layer_of c L)) A with
  | Ordered _ _ _ _ _ => supM m
  | Sequenced _ _ _ => supM m
  | RandomAccess _ _ => supM m
  | Hashed _ _ _ _ _ _ _ => supM m
  end.

Section World.
Variable W : World V.
Notation stack := (stack throws pick hd W).
Fixpoint at_index (cs : list (code V)) (i : nat) (o : iop) : M (St (stack cs)) unit :=
  match cs return M (St (stack cs)) unit with
  | [] => ub
  | c :: cs => match i with
               | O => irun c (stack cs) o
               | Datatypes.S i => lift c (stack cs) (at_index cs i o)
               end
  end.
Definition at_allowed (cs : list (code V)) (s : St (stack cs)) (i : nat) (o : iop) : Prop :=
  exists c ls l, nth_error cs i = Some c /\ views throws pick hd W cs s = Some ls /\ nth_error ls i = Some l /\ iallowed c l o.

Fixpoint set_nth {A} (i : nat) (x : A) (l : list A) : list A :=
  match l, i with
  | [], _ => []
  | y :: l, O => x :: l
  | y :: l, Datatypes.S i => y :: set_nth i x l
  end.

Variable AW : Type.
Variable wrep : WS W -> AW -> Prop.
Variable wready : node -> AW -> Prop.
Variable wrem : node -> AW -> AW.
Notation spec := (spec hd wready wrem).
Notation srep := (srep throws pick hd W wrep wready wrem).
Hypothesis pick_ok : forall l, ~ In (pick l) (null :: l).
Hypothesis OW : WOK W wrep wready wrem.

Record adone (cs : list (code V)) (s : St (stack cs)) (a : AV (spec cs)) (i : nat) (E : list node -> list node -> Prop)
  (H : nat -> nat -> Prop) (s' : St (stack cs)) (a' : AV (spec cs)) (l l' : list node) : Prop := mkAD {
  ad_rep : srep cs s' a';
  ad_eff : E l l';
  ad_els : els (spec cs) a' = set_nth i l' (els (spec cs) a);
  ad_ok : aok (spec cs) (val dv (bget (stack cs) s)) a';
  ad_cnt : cget (stack cs) s' = cget (stack cs) s;
  ad_mem : mem (bget (stack cs) s') = mem (bget (stack cs) s);
  ad_tk : H (tk (bget (stack cs) s)) (tk (bget (stack cs) s')) }.

Lemma lift_eq c L A (m : M (St L) A) s : lift c L m s =
  match m (below throws pick hd c L s) with
  | Ret r t => lift c L (fun _ => Ret r t) s
  | Exn t => lift c L (fun _ => @Exn _ A t) s
  | UB => UB
  end.
Proof. destruct c; cbn; unfold supM, lensM; now destruct (m (snd s)). Qed.
Definition put_below (c : code V) (L : Layer V) (s : St (layer_of c L)) (t : St L) : St (layer_of c L) :=
  match c return St (layer_of c L) -> St L -> St (layer_of c L) with
  | Ordered _ _ _ _ _ => fun s t => (fst s, t)
  | Sequenced _ _ _ => fun s t => (fst s, t)
  | RandomAccess _ _ => fun s t => (fst s, t)
  | Hashed _ _ _ _ _ _ _ => fun s t => (fst s, t)
  end s t.
Lemma wp_lift c L A (m : M (St L) A) (Q : A -> St (layer_of c L) -> Prop) E s :
  wp m (fun r t => Q r (put_below c L s t)) (fun t => E (put_below c L s t)) (below throws pick hd c L s) -> wp (lift c L m) Q E s.
Proof. destruct c; unfold wp, lift, supM, lensM; cbn; destruct (m (snd s)); auto. Qed.
Lemma put_rep c L S (rep : St L -> AV S -> Prop) s a t b :
  @rep_of V throws pick hd c L S rep s a -> rep t b -> @rep_of V throws pick hd c L S rep (put_below c L s t) (fst a, b).
Proof. destruct c; intros (H & _) R; split; auto. Qed.
Lemma put_cget c L s t : cget (layer_of c L) (put_below c L s t) = cget L t.
Proof. now destruct c. Qed.
Lemma put_bget c L s t : bget (layer_of c L) (put_below c L s t) = bget L t.
Proof. now destruct c. Qed.
Lemma below_bget c L s : bget L (below throws pick hd c L s) = bget (layer_of c L) s.
Proof. now destruct c. Qed.

Theorem at_ok cs : Forall (@code_ok V) cs -> forall i o s a c l lk,
  srep cs s a -> inv hd (bget (stack cs) s) (els (spec cs) a) lk -> cget (stack cs) s = length lk ->
  aok (spec cs) (val dv (bget (stack cs) s)) a ->
  nth_error cs i = Some c -> nth_error (els (spec cs) a) i = Some l -> iallowed c l o ->
  wp (at_index cs i o)
     (fun _ s' => exists a' l', adone cs s a i (ieffect c (val dv (bget (stack cs) s)) o) (quiet throws) s' a' l l')
     (fun s' => exists a' l', adone cs s a i (ieffect_exn o) (fun n m => n <= m) s' a' l l') s.
Proof.
  induction 1 as [|c0 cs H F IH]; intros i o s a c l lk R Iv Cg Ao Nc Nl Al.
  - destruct i; discriminate.
  - destruct i as [|i]; cbn [nth_error at_index] in *.
    + injection Nc as <-. cbn in Nl. injection Nl as <-.
      eapply wp_conseq; [eapply (irun_ok (stack_ok throws pick dv hd pick_ok OW F) pick_ok c0 o s H R Al Iv Cg Ao)| |].
      * intros ? s' (a' & [D1 D2 D3 D4 D5 D6]). cbv beta in *. exists (a', snd a), (kel (kind_of hd c0) a').
        split; auto. cbn. destruct Ao. auto.
      * intros s' (a' & [D1 D2 D3 D4 D5 D6]). cbv beta in *. exists (a', snd a), (kel (kind_of hd c0) a').
        split; auto. cbn. destruct Ao. auto.
    + assert (R2 := @below_ok V throws pick hd c0 _ _ _ _ _ R). cbn in Nl. apply wp_lift.
      eapply wp_conseq; [eapply IH with (a := snd a) (lk := lk); eauto| |].
      * rewrite below_bget. exact (inv_tl Iv).
      * rewrite below_size. exact Cg.
      * rewrite below_bget. apply Ao.
      * intros ? t (a' & l' & [D1 D2 D3 D4 D5 D6 D7]). rewrite ?below_bget, ?below_size in *. exists (fst a, a'), l'. split; auto.
        -- exact (@put_rep c0 _ _ _ _ _ _ _ R D1).
        -- cbn. now rewrite D3.
        -- destruct Ao as (A1 & _). split; auto.
        -- cbn. now rewrite put_cget.
        -- cbn. now rewrite put_bget.
        -- cbn. now rewrite put_bget.
      * intros t (a' & l' & [D1 D2 D3 D4 D5 D6 D7]). rewrite ?below_bget, ?below_size in *. exists (fst a, a'), l'. split; auto.
        -- exact (@put_rep c0 _ _ _ _ _ _ _ R D1).
        -- cbn. now rewrite D3.
        -- destruct Ao as (A1 & _). split; auto.
        -- cbn. now rewrite put_cget.
        -- cbn. now rewrite put_bget.
        -- cbn. now rewrite put_bget.
Qed.

Lemma set_nth_perm i (l l' lk : list node) : forall ls, nth_error ls i = Some l -> Permutation l l' ->
  Forall (fun l => Permutation l lk) ls -> Forall (fun l => Permutation l lk) (set_nth i l' ls).
Proof.
  induction i as [|i IH]; intros [|k ls]; cbn; try easy; intros E P F; inversion F; subst; constructor; auto.
  - injection E as ->. now rewrite <- P.
Qed.

Notation good cs := (@ContOk.good V dv hd (stack cs) (spec cs) (srep cs)).

(** at the level of [good] *)
Theorem at_good cs : Forall (@code_ok V) cs -> forall i o s a lk out,
  good cs s a lk out -> at_allowed cs s i o ->
  exists c l, nth_error cs i = Some c /\ nth_error (els (spec cs) a) i = Some l /\ iallowed c l o /\
  wp (at_index cs i o)
     (fun _ s' => exists a' l', adone cs s a i (ieffect c (val dv (bget (stack cs) s)) o) (quiet throws) s' a' l l' /\ good cs s' a' lk out)
     (fun s' => exists a' l', adone cs s a i (ieffect_exn o) (fun n m => n <= m) s' a' l l' /\ good cs s' a' lk out) s.
Proof.
  intros F i o s a lk out G (c & ls & l & Nc & Vs & Nl & Al). destruct G as [R I C A M].
  assert (FF : Forall (fun l => length l <= cget (stack cs) s /\ forall x, In x l -> live (bget (stack cs) s) x) (els (spec cs) a)).
  { destruct I as [I1 I2 I3 I4 I5]. eapply Forall_impl; [|exact I2]. intros k P. cbv beta in P. split.
    - rewrite C. now rewrite (Permutation_length P).
    - intros x Ix. apply I3. eapply Permutation_in; eauto. }
  assert (Vw : views throws pick hd W cs s = Some (els (spec cs) a)).
  { eapply views_ok; [exact R|]. eapply Forall_impl; [|exact FF]. intros k (P & _). exact P. }
  rewrite Vw in Vs. injection Vs as <-. exists c, l. splits; auto.
  assert (KG : forall (E : list node -> list node -> Prop) (H : nat -> nat -> Prop) s' a' l', (forall l l', E l l' -> iallowed c l o -> Permutation l l') -> adone cs s a i E H s' a' l l' -> good cs s' a' lk out).
  { intros E H s' a' l' EP [D1 D2 D3 D4 D5 D6 D7]. split; auto.
    - destruct I as [I1 I2 I3 I4 I5]. split; auto.
      + rewrite D3. eapply set_nth_perm; eauto.
      + intros x Ix. eapply live_mem; [symmetry; exact D6|auto].
      + now rewrite D6.
      + now rewrite D6.
    - now rewrite D5.
    - eapply (o_ext (stack_ok throws pick dv hd pick_ok OW F)); [exact D4|]. intros x k _ _. now apply val_mem.
    - now rewrite D6. }
  eapply wp_conseq; [eapply at_ok; eauto| |].
  - intros ? s' (a' & l' & D). exists a', l'. split; auto. eapply KG; [|exact D]. intros k k' E1 E2. eapply ieffect_perm; eauto.
  - intros s' (a' & l' & D). exists a', l'. split; auto. eapply KG; [|exact D]. intros k k' E1 E2. eapply ieffect_exn_perm; eauto.
Qed.
End World.
End I.
