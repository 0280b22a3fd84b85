(** C58: memory goes back to the allocator it comes from.

    [deallocate] of Alloc.v is undefined unless the block is allocated and its allocator equals the one asked to take it
    back, so that [run] yields [None] exactly when a program, all of whose operations are allowed, returns memory to
    another allocator (or twice). *)
From Verif Require Import Prelude Alloc AllocProofs AllocOps.
Set Implicit Arguments.

(** ** What is expected of get_allocator *)
Definition alm (C : list (nat * cont)) (i : nat) : option nat := option_map cal (find C i).
Definition exchange (m : nat -> option nat) (i j k : nat) : option nat := if k =? i then m j else if k =? j then m i else m k.
(** [m]: the allocator of each container before the operation *)
Definition after (tr : traits) (o : op) (m : nat -> option nat) : nat -> option nat :=
  match o with
  | Construct i al _ | CopyAl i _ al | MoveAl i _ al => upd m i (Some al)
  | Copy i j => upd m i (option_map (soccc tr) (m j))
  | Move i j => upd m i (m j)
  | Destroy i => upd m i None
  | CopyAssign i j => if pocca tr then upd m i (m j) else m
  | MoveAssign i j => if pocma tr then exchange m i j else m
  | Swap i j => if pocs tr then exchange m i j else m
  | _ => m
  end.

Section Props.
Variable tr : traits.
Notation CC := (list (nat * cont)).
Notation T := (T tr).

Lemma alm_set C i c c' k : find C i = Some c -> alm (set C i c') k = if k =? i then Some (cal c') else alm C k.
Proof.
  intros F. unfold alm. destruct (Nat.eqb_spec k i) as [->|N].
  - now rewrite (find_set_eq C i c' F).
  - now rewrite find_set_ne.
Qed.
Lemma alm_same C i c c' k : find C i = Some c -> cal c' = cal c -> alm (set C i c') k = alm C k.
Proof. intros F E. rewrite (alm_set C i c' k F). destruct (Nat.eqb_spec k i) as [->|N]; auto. unfold alm. rewrite F, E. reflexivity. Qed.
Lemma alm_new C i c k : alm ((i, c) :: C) k = upd (alm C) i (Some (cal c)) k.
Proof. unfold alm, upd. cbn. rewrite Nat.eqb_sym. now destruct (k =? i). Qed.
Lemma alm_exchange C i j t x k : find C i = Some t -> find C j = Some x -> alm (set (set C i x) j t) k = exchange (alm C) i j k.
Proof.
  intros F1 F2. unfold exchange, alm at 2 3 4. destruct (Nat.eq_dec j i) as [->|N].
  - assert (t = x) as -> by congruence. rewrite set_set, (set_same _ _ F1). unfold alm. destruct (Nat.eqb_spec k i) as [->|]; reflexivity.
  - assert (F3 : find (set C i x) j = Some x) by now rewrite find_set_ne.
    rewrite (alm_set (set C i x) j t k F3), (alm_set C i x k F1), F1, F2. cbn.
    destruct (Nat.eqb_spec k j), (Nat.eqb_spec k i); subst; try congruence; reflexivity.
Qed.
Lemma live_find s i : live s i = true -> exists c, find (cts s) i = Some c /\ i <> 0.
Proof. unfold live. destruct (find (cts s) i) as [c|]; [|discriminate]. intros H. exists c. split; auto. now destruct i. Qed.
Lemma hlive_find s i : hlive s i = true -> exists c, find (hds s) i = Some c.
Proof. unfold hlive. destruct (find (hds s) i) as [c|]; [|discriminate]. eauto. Qed.
Lemma fresh_find s i : fresh s i = true -> find (cts s) i = None /\ i <> 0.
Proof. unfold fresh. destruct (find (cts s) i) as [c|]; [discriminate|]. split; auto. now destruct i. Qed.
Lemma al_find s i c : find (cts s) i = Some c -> al_of s i = cal c.
Proof. unfold al_of. now intros ->. Qed.

Ltac hyps :=
  repeat match goal with
    | H : _ && _ = true |- _ => apply andb_true_iff in H as [? ?]
    | H : live _ _ = true |- _ => apply live_find in H as (? & ? & ?)
    | H : hlive _ _ = true |- _ => apply hlive_find in H as (? & ?)
    | H : fresh _ _ = true |- _ => apply fresh_find in H as (? & ?)
    | H : find (cts ?s) ?i = Some ?c |- _ =>
        lazymatch goal with _ : al_of s i = cal c |- _ => fail | _ => pose proof (al_find _ _ H) end
    end.

Ltac fnd := repeat match goal with K : find ?l ?i = Some _ |- context [find ?l ?i] => rewrite K end.
Lemma T_step o s C H :
  cts s = C -> hds s = H -> find C 0 = None -> allowed tr o s = true -> free tr \/ crossing tr o s = false ->
  T C H [] (step tr o) (fun _ C' _ X' => X' = [] /\ forall k, alm C' k = after tr o (alm C) k) (fun C' _ X' => X' = [] /\ forall k, alm C' k = alm C k).
Proof.
  intros HC HH F0 A G. subst C H. destruct o; cbn [step allowed crossing after] in *; hyps.
  - apply T_construct; auto. intros c E. split; auto. intros k. rewrite alm_new. now rewrite E.
  - apply T_bind, T_get with (c := x); auto. intros Sx. apply T_bind, T_copy_al; auto. intros c R. apply T_new with (X' := []); auto.
    + apply (raw_sane R). destruct G as [G|G]; auto. right. apply negb_false_iff, Nat.eqb_eq in G. congruence.
    + split; auto. intros k. rewrite alm_new. destruct R as (-> & _). unfold upd, alm. destruct (k =? i); auto. fnd. reflexivity.
  - apply T_bind, T_get with (c := x); auto. intros Sx. apply T_bind, T_copy_al; auto. intros c R. apply T_new with (X' := []); auto.
    + apply (raw_sane R). destruct G as [G|G]; auto. right. apply negb_false_iff, Nat.eqb_eq in G. congruence.
    + split; auto. intros k. rewrite alm_new. now destruct R as (-> & _).
  - apply T_bind, T_move with (x := x); auto. intros c x' E1 Sc E2. apply T_new with (X' := []); auto.
    + rewrite find_set_ne; auto. congruence.
    + split; auto. intros k. rewrite alm_new. unfold upd. rewrite (@alm_same (cts s) j x x') by auto. destruct (k =? i); auto. unfold alm. fnd. cbn. now rewrite E1.
  - apply T_bind, T_move_al with (x := x); auto.
    + destruct G as [G|G]; auto. right. apply negb_false_iff, Nat.eqb_eq in G. congruence.
    + intros c x' E1 Sc E2. apply T_new with (X' := []); auto.
      * rewrite find_set_ne; auto. congruence.
      * split; auto. intros k. rewrite alm_new. unfold upd. rewrite (@alm_same (cts s) j x x') by auto. destruct (k =? i); auto; now rewrite E1.
    + split; auto. intros k. now apply alm_same with x.
  - apply T_bind, T_get with (c := x); auto. intros _. apply T_bind, T_drop with (c := x); auto. intros D. apply T_destroy with (X' := []); auto.
    split; auto. intros k. unfold upd, alm. destruct (Nat.eqb_spec k i) as [->|N]; [rewrite (find_del_eq blocks _ i D); reflexivity|now rewrite find_del_ne].
  - apply T_copy_assign with (t := x0) (x := x); auto.
    + destruct G as [G|G]; auto. right. destruct (pocca tr); auto. right. cbn in G. apply negb_false_iff, Nat.eqb_eq in G. congruence.
    + intros c E. split; auto. intros k. rewrite (@alm_set (cts s) i x0) by auto. destruct (pocca tr).
      * unfold upd. destruct (k =? i); auto. unfold alm. fnd. cbn. now rewrite E.
      * destruct (Nat.eqb_spec k i) as [->|]; auto. unfold alm. fnd. cbn. now rewrite E.
  - apply T_move_assign with (t := x0) (x := x); auto.
    + destruct G as [G|G]; auto. right. destruct (pocma tr); auto. right. cbn in G. apply negb_false_iff, Nat.eqb_eq in G. congruence.
    + intros P. split; auto. intros k. rewrite (@alm_exchange (cts s) i j x0 x) by auto. destruct (pocma tr) eqn:Pm; auto.
      destruct P as [P|P]; [discriminate|]. unfold exchange, alm. destruct (Nat.eqb_spec k i) as [->|]; [fnd; cbn; now rewrite P|].
      destruct (Nat.eqb_spec k j) as [->|]; auto. fnd. cbn. now rewrite P.
    + intros Pm Ne c x' E1 E2. rewrite Pm. split; auto. intros k. assert (i <> j) by congruence.
      rewrite (@alm_same _ i x0); auto; [now apply alm_same with x|]. now rewrite find_set_ne.
    + split; auto. intros k. now apply alm_same with x.
  - apply T_init_assign with (t := x); auto. intros c E. split; auto. intros k. now apply alm_same with x.
  - apply T_swap_ids with (t := x0) (x := x); auto.
    + intros S1 S2. destruct (pocs tr) eqn:P.
      * apply swap_true_eq. destruct S1, S2; congruence.
      * apply swap_false_eq, (@fit_false tr); auto. match goal with K : _ || _ = true |- _ => cbn in K; apply Nat.eqb_eq in K end. congruence.
    + intros _ _. split; auto. intros k. rewrite (@alm_exchange (cts s) i j x0 x) by auto. destruct (pocs tr) eqn:P; auto.
      match goal with K : _ || _ = true |- _ => cbn in K; apply Nat.eqb_eq in K end. unfold exchange, alm.
      destruct (Nat.eqb_spec k i) as [->|]; [fnd; cbn; congruence|]. destruct (Nat.eqb_spec k j) as [->|]; auto. fnd. cbn. congruence.
  - apply T_insert with (c := x); auto; intros c E; (split; auto); intros k; now apply alm_same with x.
  - apply T_emplace with (c := x); auto; intros c E; (split; auto); intros k; now apply alm_same with x.
  - apply T_erase with (c := x); auto; intros c E; (split; auto); intros k; now apply alm_same with x.
  - apply T_clear with (c := x); auto. intros _. split; auto. intros k. now apply alm_same with x.
  - destruct (nth_error (layout tr) p) as [k|] eqn:N; [|now apply T_ret].
    apply T_resize with (c := x); auto; [apply nth_error_Some; congruence|]. intros c E1 E2. split; auto. intros k'. now apply alm_same with x.
  - apply T_scratch with (c := x); auto.
  - apply T_transfer with (c := x0) (x := x); auto.
    + intros ->. match goal with K : negb (j =? j) = true |- _ => now rewrite Nat.eqb_refl in K end.
    + match goal with K : same_al _ _ _ = true |- _ => apply Nat.eqb_eq in K end. congruence.
    + intros c x' E1 E2. split; auto. intros k.
      assert (i <> j) by (intros ->; match goal with K : negb (j =? j) = true |- _ => now rewrite Nat.eqb_refl in K end).
      rewrite (@alm_same _ i x0); auto; [now apply alm_same with x|]. now rewrite find_set_ne.
    + intros c E1. split; auto. intros k. now apply alm_same with x0.
  - apply T_extract with (c := x); auto. intros c H' E. split; auto. intros k. now apply alm_same with x.
  - apply T_insert_handle with (c := x) (x := x0); auto.
    + match goal with K : find (hds s) h = Some x0, K' : match _ with _ => _ end = true |- _ => rewrite K in K'; destruct x0 as [[b a]|]; auto; apply Nat.eqb_eq in K'; congruence end.
    + intros c H' E. split; auto. intros k. now apply alm_same with x.
    + intros c E. split; auto. intros k. now apply alm_same with x.
  - apply T_hnew with (X' := []); auto.
  - apply T_handle_move with (x := x); auto.
  - apply T_handle_assign with (x := x0) (y := x); auto.
    destruct (pocma tr); auto. right. match goal with K : _ || _ = true |- _ => cbn in K; unfold handles_agree in K; repeat match goal with K2 : find (hds s) _ = Some _ |- _ => rewrite K2 in K end end.
    destruct x0 as [[b a]|], x as [[b' a']|]; auto. now apply Nat.eqb_eq.
  - apply T_handle_swap with (x := x0) (y := x); auto.
    destruct (pocs tr); auto. right. match goal with K : _ || _ = true |- _ => cbn in K; unfold handles_agree in K; repeat match goal with K2 : find (hds s) _ = Some _ |- _ => rewrite K2 in K end end.
    destruct x0 as [[b a]|], x as [[b' a']|]; auto. now apply Nat.eqb_eq.
  - apply T_handle_destroy with (x := x); auto.
Qed.

(** ** Programs *)
Definition ok (s : ast) : Prop := st tr s (cts s) (hds s) [] /\ find (cts s) 0 = None.
Lemma st_ok s C H : st tr s C H [] -> find C 0 = None -> ok s.
Proof. intros S F. destruct S as (S1 & S2 & S3 & S4). subst. split; auto. repeat split; auto; apply S4. Qed.
Lemma after_0 o s : ok s -> allowed tr o s = true -> after tr o (alm (cts s)) 0 = None.
Proof.
  intros (_ & F) A. assert (Z : alm (cts s) 0 = None) by (unfold alm; now rewrite F).
  destruct o; cbn [after allowed] in *; hyps; auto; unfold upd, exchange;
    repeat match goal with
      | |- context [if pocca tr then _ else _] => destruct (pocca tr)
      | |- context [if pocma tr then _ else _] => destruct (pocma tr)
      | |- context [if pocs tr then _ else _] => destruct (pocs tr)
      | |- context [0 =? ?i] => destruct (Nat.eqb_spec 0 i); [congruence|]
      end; auto.
Qed.
Lemma step_ok o s :
  ok s -> allowed tr o s = true -> free tr \/ crossing tr o s = false ->
  wp (step tr o) (fun _ s' => ok s' /\ forall k, alm (cts s') k = after tr o (alm (cts s)) k)
     (fun s' => ok s' /\ forall k, alm (cts s') k = alm (cts s) k) s.
Proof.
  intros K A G. pose proof K as (S & F). eapply wp_conseq; [apply (@T_step o s _ _ eq_refl eq_refl F A G s S)| |]; cbn.
  - intros [] s' (C' & H' & X' & (-> & E) & S'). assert (E' : cts s' = C') by apply S'. split; [|now rewrite E'].
    apply (st_ok S'). specialize (E 0). rewrite (after_0 _ K A) in E. unfold alm in E. now destruct (find C' 0).
  - intros s' (C' & H' & X' & (-> & E) & S'). assert (E' : cts s' = C') by apply S'. split; [|now rewrite E'].
    apply (st_ok S'). specialize (E 0). unfold alm in E. rewrite F in E. now destruct (find C' 0).
Qed.
Lemma exec_ok o s : ok s -> free tr \/ (allowed tr o s = true -> crossing tr o s = false) -> exists s', exec tr o s = Some s' /\ ok s'.
Proof.
  intros K G. unfold exec. destruct (allowed tr o s) eqn:A; [|eauto].
  assert (W := @step_ok o s K A ltac:(tauto)). unfold wp in W. destruct (step tr o s) as [u s'|s'|]; [..|easy]; exists s'; split; auto; apply W.
Qed.
Lemma start_ok p : ok (start p).
Proof. repeat split; auto; cbn; auto; constructor. Qed.
Lemma run_ok os s : ok s -> free tr \/ straight tr os s -> exists s', run tr os s = Some s' /\ ok s'.
Proof.
  revert s. induction os as [|o os IH]; intros s K G; cbn; [eauto|]. cbn in G.
  destruct (@exec_ok o s K ltac:(tauto)) as (s' & E & K'). rewrite E in G |- *. apply IH; auto. tauto.
Qed.
(** the states of the programs considered *)
Definition reach (s : ast) : Prop := exists p os, (free tr \/ straight tr os (start p)) /\ run tr os (start p) = Some s.
Lemma reach_ok s : reach s -> ok s.
Proof. intros (p & os & G & R). destruct (@run_ok os (start p) (start_ok p) G) as (s' & R' & K). congruence. Qed.
End Props.

(** C58: no program returns memory to another allocator if the container has no hashed and no random access index, or the
    allocator propagates on both swap and move assignment, or the program never gives a container an allocator other
    than that of the container it copies or moves from. *)
Theorem C58_defined tr p os : free tr \/ straight tr os (start p) -> exists s, run tr os (start p) = Some s.
Proof. intros G. destruct (@run_ok tr os (start p) (start_ok tr p) G) as (s & R & _). eauto. Qed.

(** ... then nothing is left when all containers and node handles have been destroyed, whatever was thrown meanwhile, *)
Theorem C58_returned tr s : reach tr s -> cts s = [] -> hds s = [] -> heap s = [].
Proof.
  intros R E1 E2. destruct (reach_ok R) as ((P & _) & _). rewrite E1, E2 in P. cbn in P. now apply Permutation_nil, Permutation_sym.
Qed.
(** ... the memory allocated is what the live objects own, nothing is owned twice, *)
Definition owned (s : ast) : list (nat * nat) :=
  concat (map (fun p => let c := snd p in
                        (chdr c, cal c) :: map (fun b => (b, cal c)) (cnodes c) ++
                        concat (map (fun x => match sdata x with Some b => [(b, sal x)] | None => [] end) (carr c))) (cts s)) ++
  concat (map (fun p => match snd p with Some q => [q] | None => [] end) (hds s)).
Theorem C58_owned tr s : reach tr s -> Permutation (heap s) (owned s).
Proof.
  intros R. destruct (reach_ok R) as ((P & _) & _). rewrite P. unfold owned. cbn [app]. clear. apply Permutation_app.
  - unfold own. rewrite flat_map_concat_map. induction (cts s) as [|[i c] C IH]; cbn [map concat]; auto. apply Permutation_app; auto.
    cbn [snd]. unfold blocks, bbs, nbs, spbs, spb. rewrite flat_map_concat_map. cbn [app]. constructor. apply Permutation_app_comm.
  - unfold ownh. rewrite flat_map_concat_map. induction (hds s) as [|[i c] C IH]; cbn [map concat]; auto.
Qed.
(** ... and get_allocator is as the traits and select_on_container_copy_construction say; an operation that throws changes no allocator. *)
Theorem C58_get_allocator tr s o :
  reach tr s -> allowed tr o s = true -> free tr \/ crossing tr o s = false ->
  match step tr o s with
  | Ret _ s' => forall i, alm (cts s') i = after tr o (alm (cts s)) i
  | Exn s' => forall i, alm (cts s') i = alm (cts s) i
  | UB => False
  end.
Proof.
  intros R A G. pose proof (step_ok _ (reach_ok R) A G) as W. unfold wp in W. destruct (step tr o s); apply W.
Qed.

(** ** The other allocators *)
Lemma remove1_none b a l : ~ In (b, a) l -> remove1 b a l = None.
Proof.
  induction l as [|[b' a'] l IH]; [easy|]. cbn. intros N. rewrite IH by tauto.
  destruct (Nat.eqb_spec b' b) as [->|]; [destruct (Nat.eqb_spec a' a) as [->|]|]; cbn; auto. exfalso. auto.
Qed.
Definition arr (a : nat) (l : list nat) : list space := map (fun b => mkSp a (Some b)) l.
Definition hp (a : nat) (l : list nat) : list (nat * nat) := map (fun b => (b, a)) l.
Definition ids (n k : nat) : list nat := rev (seq n k).
Lemma ids_S n k : ids n (S k) = (n + k) :: ids n k.
Proof. unfold ids. rewrite seq_S, rev_app_distr. reflexivity. Qed.
Lemma in_hp b a a' n k : In (b, a) (hp a' (ids n k)) <-> a = a' /\ n <= b < n + k.
Proof.
  unfold hp, ids. rewrite in_map_iff. split.
  - intros (x & [= -> ->] & I). rewrite <- in_rev in I. apply in_seq in I. auto.
  - intros (-> & L). exists b. rewrite <- in_rev, in_seq. auto.
Qed.
Lemma arrays_run a ks h n C H :
  arrays_new a ks (mkA h n [] C H) = Ret (arr a (ids n (length ks))) (mkA (hp a (ids n (length ks)) ++ h) (n + length ks) [] C H).
Proof.
  induction ks as [|k ks IH]; cbn [arrays_new length].
  - cbn. now rewrite Nat.add_0_r.
  - unfold bind at 1. rewrite IH. rewrite ids_S. cbn. now rewrite Nat.add_succ_r.
Qed.
Lemma base_run tr al a h n C H :
  base_new tr al a (mkA h n [] C H) =
  Ret (mkC al n [] (arr a (ids (S n) (length (layout tr)))))
      (mkA (hp a (ids (S n) (length (layout tr))) ++ (n, al) :: h) (S n + length (layout tr)) [] C H).
Proof. unfold base_new, bind at 1. cbn -[ids Nat.add]. unfold try_catch, bind. now rewrite arrays_run. Qed.
Lemma arr_swap a b l m : length l = length m -> spaces_swap false (arr a l) (arr b m) = (arr a m, arr b l).
Proof. revert m. induction l as [|x l IH]; intros [|y m] L; try discriminate; [reflexivity|]. injection L as L. cbn. unfold arr in IH. now rewrite IH. Qed.
Lemma ids_length n k : length (ids n k) = k.
Proof. unfold ids. now rewrite rev_length, seq_length. Qed.

(** Two programs.  Containers 1 and 3 have allocators 1 and 2, container 2 is a copy of 1 with allocator 2. *)
Definition by_move : list op := [Construct 1 1 0; CopyAl 2 1 2; Move 3 2; Destroy 3].
Definition by_assign : list op := [Construct 1 1 0; CopyAl 2 1 2; Construct 3 2 0; MoveAssign 3 2; Destroy 3].
Lemma wrong_delete tr k a b r n h C H :
  layout tr <> [] -> k = length (layout tr) -> ~ In (n + pred k, a) h ->
  destroy (mkC a b [] (arr a (ids n k))) (mkA h r [] C H) = UB.
Proof.
  intros L -> N. destruct (layout tr) as [|x l]; [easy|]. cbn [length pred] in *. rewrite ids_S. unfold destroy, base_delete, bind. cbn.
  unfold deallocate, bind. cbn. now rewrite (remove1_none _ _ _ N).
Qed.
Lemma copy_run tr x al h n C H :
  cnodes x = [] ->
  copy_al tr x al (mkA h n [] C H) =
  Ret (mkC al n [] (arr (cal x) (ids (S n) (length (layout tr)))))
      (mkA (hp (cal x) (ids (S n) (length (layout tr))) ++ (n, al) :: h) (S n + length (layout tr)) [] C H).
Proof. intros N. unfold copy_al, bind at 1. rewrite base_run, N. reflexivity. Qed.
Lemma construct_run tr i al h n C H :
  construct tr i al 0 (mkA h n [] C H) =
  Ret tt (mkA (hp al (ids (S n) (length (layout tr))) ++ (n, al) :: h) (S n + length (layout tr)) [] ((i, mkC al n [] (arr al (ids (S n) (length (layout tr))))) :: C) H).
Proof. unfold construct, bind at 1. now rewrite base_run. Qed.

Lemma by_move_wrong tr : layout tr <> [] -> pocs tr = false -> run tr by_move (start []) = None.
Proof.
  intros L P. unfold by_move, start. cbn [run]. set (k := length (layout tr)).
  assert (E1 : exec tr (Construct 1 1 0) (mkA [] 0 [] [] []) =
    Some (mkA (hp 1 (ids 1 k) ++ [(0, 1)]) (S k) [] [(1, mkC 1 0 [] (arr 1 (ids 1 k)))] [])).
  { unfold exec. cbn [allowed fresh cts find Nat.eqb negb step]. now rewrite construct_run. }
  rewrite E1. clear E1. set (c1 := mkC 1 0 [] (arr 1 (ids 1 k))). set (h1 := hp 1 (ids 1 k) ++ [(0, 1)]).
  set (c2 := mkC 2 (S k) [] (arr 1 (ids (S (S k)) k))). set (h2 := hp 1 (ids (S (S k)) k) ++ (S k, 2) :: h1).
  assert (E2 : exec tr (CopyAl 2 1 2) (mkA h1 (S k) [] [(1, c1)] []) = Some (mkA h2 (S (S k) + k) [] [(2, c2); (1, c1)] [])).
  { unfold exec. cbn [allowed fresh live cts find Nat.eqb negb andb step]. unfold bind, get. cbn [cts find Nat.eqb]. now rewrite copy_run. }
  rewrite E2. clear E2. set (n := S (S k) + k). set (h3 := hp 2 (ids (S n) k) ++ (n, 2) :: h2).
  assert (E3 : exec tr (Move 3 2) (mkA h2 n [] [(2, c2); (1, c1)] []) =
    Some (mkA h3 (S n + k) [] [(3, mkC 2 (S k) [] (arr 2 (ids (S (S k)) k))); (2, mkC 2 n [] (arr 1 (ids (S n) k))); (1, c1)] [])).
  { unfold exec. cbn [allowed fresh live cts find Nat.eqb negb andb step]. unfold move, bind, get. cbn [cts find Nat.eqb cal c2]. rewrite base_run.
    unfold swap_elements. cbn [carr c2]. rewrite P. fold k. rewrite arr_swap by now rewrite !ids_length. reflexivity. }
  rewrite E3. clear E3. unfold exec. cbn [allowed live cts find Nat.eqb negb andb step]. unfold bind, get, drop. cbn [cts find del Nat.eqb].
  rewrite (@wrong_delete tr); auto. cbn [heap]. unfold h3, h2, h1. rewrite !in_app_iff. cbn [In]. rewrite !in_app_iff, !in_hp. cbn [In]. rewrite in_app_iff, in_hp. cbn [In].
  assert (0 < k) by (unfold k; destruct (layout tr); [easy|cbn; lia]). unfold n. intros Z.
  repeat match type of Z with _ \/ _ => destruct Z as [Z|Z] end; try (apply (f_equal fst) in Z; cbn in Z); lia.
Qed.
Lemma by_assign_wrong tr : layout tr <> [] -> pocma tr = false -> run tr by_assign (start []) = None.
Proof.
  intros L P. unfold by_assign, start. cbn [run]. set (k := length (layout tr)).
  assert (E1 : exec tr (Construct 1 1 0) (mkA [] 0 [] [] []) =
    Some (mkA (hp 1 (ids 1 k) ++ [(0, 1)]) (S k) [] [(1, mkC 1 0 [] (arr 1 (ids 1 k)))] [])).
  { unfold exec. cbn [allowed fresh cts find Nat.eqb negb step]. now rewrite construct_run. }
  rewrite E1. clear E1. set (c1 := mkC 1 0 [] (arr 1 (ids 1 k))). set (h1 := hp 1 (ids 1 k) ++ [(0, 1)]).
  set (c2 := mkC 2 (S k) [] (arr 1 (ids (S (S k)) k))). set (h2 := hp 1 (ids (S (S k)) k) ++ (S k, 2) :: h1).
  assert (E2 : exec tr (CopyAl 2 1 2) (mkA h1 (S k) [] [(1, c1)] []) = Some (mkA h2 (S (S k) + k) [] [(2, c2); (1, c1)] [])).
  { unfold exec. cbn [allowed fresh live cts find Nat.eqb negb andb step]. unfold bind, get. cbn [cts find Nat.eqb]. now rewrite copy_run. }
  rewrite E2. clear E2. set (n := S (S k) + k). set (h3 := hp 2 (ids (S n) k) ++ (n, 2) :: h2).
  set (c3 := mkC 2 n [] (arr 2 (ids (S n) k))).
  assert (E3 : exec tr (Construct 3 2 0) (mkA h2 n [] [(2, c2); (1, c1)] []) = Some (mkA h3 (S n + k) [] [(3, c3); (2, c2); (1, c1)] [])).
  { unfold exec. cbn [allowed fresh live cts find Nat.eqb negb andb step]. now rewrite construct_run. }
  rewrite E3. clear E3.
  assert (E4 : exec tr (MoveAssign 3 2) (mkA h3 (S n + k) [] [(3, c3); (2, c2); (1, c1)] []) =
    Some (mkA h3 (S n + k) [] [(3, mkC 2 (S k) [] (arr 2 (ids (S (S k)) k))); (2, mkC 2 n [] (arr 1 (ids (S n) k))); (1, c1)] [])).
  { unfold exec. cbn [allowed fresh live cts find Nat.eqb negb andb step]. unfold move_assign, swap_ids, bind, get. cbn [cts find Nat.eqb]. rewrite P.
    cbn [cal c3 c2 Nat.eqb cts find]. unfold swap_with. cbn [carr c3 c2]. rewrite arr_swap by now rewrite !ids_length. reflexivity. }
  rewrite E4. clear E4. unfold exec. cbn [allowed live cts find Nat.eqb negb andb step]. unfold bind, get, drop. cbn [cts find del Nat.eqb].
  rewrite (@wrong_delete tr); auto. cbn [heap]. unfold h3, h2, h1. rewrite !in_app_iff. cbn [In]. rewrite !in_app_iff, !in_hp. cbn [In]. rewrite in_app_iff, in_hp. cbn [In].
  assert (0 < k) by (unfold k; destruct (layout tr); [easy|cbn; lia]). unfold n. intros Z.
  repeat match type of Z with _ \/ _ => destruct Z as [Z|Z] end; try (apply (f_equal fst) in Z; cbn in Z); lia.
Qed.

(** All programs return memory to the right allocator exactly for containers with no hashed and no random access index and
    for allocators that propagate on both swap and move assignment. *)
Theorem C58_exact tr :
  (forall p os, run tr os (start p) <> None) <-> layout tr = [] \/ (pocs tr = true /\ pocma tr = true).
Proof.
  split.
  - intros H. destruct (layout tr) as [|b l] eqn:L; [now left|right].
    destruct (pocs tr) eqn:P; [|exfalso; apply (H [] by_move); apply by_move_wrong; congruence].
    destruct (pocma tr) eqn:Q; [auto|exfalso; apply (H [] by_assign); apply by_assign_wrong; congruence].
  - intros F p os. destruct (@C58_defined tr p os (or_introl F)) as (s & ->). discriminate.
Qed.

(** ** Cases *)
(** an allocator that does not propagate, as boost::container::pmr::polymorphic_allocator; [soccc] chooses the default (0) *)
Definition pmr (ks : list bool) : traits := mkTr ks false false false (fun _ => 0).
(** move assignment between unequal allocators, with a hashed or a random access index: undefined as soon as it is done *)
Example hashed_move_assignment : run (pmr [true]) [Construct 1 1 3; Construct 2 2 3; MoveAssign 1 2] (start []) = None.
Proof. reflexivity. Qed.
Example random_access_move_assignment : run (pmr [false]) [Construct 1 1 3; Construct 2 2 3; MoveAssign 1 2] (start []) = None.
Proof. reflexivity. Qed.
(** a copy, or a copy assignment, whose hash table is enlarged afterwards *)
Example hashed_copy : run (pmr [true]) [Construct 1 1 3; Copy 2 1; Resize 2 0] (start []) = None.
Proof. reflexivity. Qed.
Example hashed_copy_assignment : run (pmr [true]) [Construct 1 1 3; Construct 2 2 3; CopyAssign 2 1; Resize 2 0] (start []) = None.
Proof. reflexivity. Qed.
(** the same program with ordered and sequenced indices only, and with an allocator that propagates *)
Definition tour : list op :=
  [Construct 1 1 3; Construct 2 2 2; CopyAl 3 1 2; Copy 4 3; Move 5 4; MoveAl 6 5 1; CopyAssign 2 1; MoveAssign 1 3; Resize 2 0;
   InitAssign 3 2; Insert 6; Emplace 6; Extract 6 0 1; HandleMove 1 2; HandleSwap 1 2; InsertHandle 6 1; Transfer 2 3 0; Swap 5 6].
Example trees_tour : exists s, run (pmr []) tour (start []) = Some s /\ length (cts s) = 6 /\ length (heap s) = length (owned s).
Proof. eexists. split; [vm_compute; reflexivity|]. split; reflexivity. Qed.
Example propagating_tour :
  let tr := mkTr [true; false] false true true (fun a => a) in
  exists s, run tr tour (start []) = Some s /\ map (alm (cts s)) [1; 2; 3; 4; 5; 6] = [Some 2; Some 2; Some 1; Some 2; Some 1; Some 2].
Proof. eexists. split; [vm_compute; reflexivity|]. reflexivity. Qed.
(** exceptions: allocating the third clone of a copy fails after six blocks have been allocated, nothing of them remains *)
Example throwing_copy :
  let tr := mkTr [true; false] false false false (fun a => a) in
  let s := mkA (heap (start [])) 0 [] [] [] in
  exists s1, run tr [Construct 1 1 3] s = Some s1 /\
  let s2 := mkA (heap s1) (next s1) (repeat false 8 ++ [true]) (cts s1) (hds s1) in
  straight tr [Copy 2 1] s2 /\
  exists s3, step tr (Copy 2 1) s2 = Exn s3 /\ heap s3 = heap s1 /\ next s3 = next s1 + 6.
Proof. eexists. split; [vm_compute; reflexivity|]. split; [vm_compute; auto|]. eexists. split; [vm_compute; reflexivity|]. split; reflexivity. Qed.
Example straight_tour :
  let tr := mkTr [true; false] false false false (fun a => a) in
  let os := [Construct 1 1 3; Copy 2 1; Move 3 2; CopyAssign 2 1; MoveAssign 1 3; Resize 2 0; Resize 2 1; Insert 2; Swap 1 2; Destroy 1; Destroy 2; Destroy 3] in
  straight tr os (start []) /\ exists s, run tr os (start []) = Some s /\ heap s = [].
Proof. cbn zeta. split; [vm_compute; tauto|]. eexists. split; [vm_compute; reflexivity|]. reflexivity. Qed.

Print Assumptions C58_defined.
Print Assumptions C58_returned.
Print Assumptions C58_owned.
Print Assumptions C58_get_allocator.
Print Assumptions C58_exact.
