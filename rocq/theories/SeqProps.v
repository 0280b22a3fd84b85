(** Properties of sequenced indices (C29-C36; parts of C44, C47 and C50).
    Statements use only SeqSpec.v and the model's operations. *)
From Verif Require Import Prelude SeqModel SeqSpec SeqHeap SeqProofs SeqUser SeqSort SeqMore SeqEx.

(** ** C29: every history of operations gives the list of the mathematical history *)
Theorem C29_sequenced_history : forall fuel h others os s l pool l' pool',
  heap_is s ((h, l) :: others) pool ->
  ssteps h os (l, pool) (l', pool') ->
  length l + length pool < fuel ->
  exists s', exec_sops fuel h os s = Ret tt s' /\ heap_is s' ((h, l') :: others) pool'.
Proof.
  intros fuel h others os s l pool l' pool' H St L. apply heap_wf in H.
  destruct (exec_sops_spec fuel h (rings others) os s (l, pool) (l', pool') St H L) as (s' & E & W & _).
  exists s'. split; [exact E|]. apply heap_wf. exact W.
Qed.
Print Assumptions C29_sequenced_history.
Example C29_history_hyp :
  heap_is (mem [(1, [4;5;6]); (2, [7])] [8;9]) [(1, [4;5;6]); (2, [7])] [8;9] /\
  ssteps 1 [SInsert 5 8; SRelocateRange 4 5 1; SErase 6; SReverse] ([4;5;6], [8;9]) ([8;4;5], [9]).
Proof.
  split; [mem_ok|].
  eapply sts_cons; [apply (st_insert 1 [4] [5;6] [] 8 [9])|].
  eapply sts_cons; [apply (st_relocate_range 1 [4;8] [5;6] [] [] [4;8]); reflexivity|].
  eapply sts_cons; [apply (st_erase 1 [5] 6 [4;8])|].
  eapply sts_cons; [apply (st_reverse 1 [5;4;8])|]. apply sts_nil.
Qed.

(** erase returns the position following the erased element and frees it *)
Theorem C29_erase_returns_next : forall s h a x b others pool,
  heap_is s ((h, a ++ x :: b) :: others) pool ->
  exists s', s_erase x s = Ret (hd h b) s' /\ heap_is s' ((h, a ++ b) :: others) pool /\
             nx s' x = None /\ pr s' x = None.
Proof.
  intros s h a x b others pool H. apply heap_wf in H.
  destruct (s_erase_spec _ _ _ _ _ _ _ H) as (s' & E & W & _ & N & P).
  exists s'. rewrite heap_wf. auto.
Qed.
Print Assumptions C29_erase_returns_next.
Example C29_erase_hyp : heap_is (mem [(1, [4;5;6])] []) [(1, [4] ++ 5 :: [6])] [].
Proof. mem_ok. Qed.

(** ** C30: sort *)
Theorem C30_sort : forall (V : Type) (val : node -> option V) throws lt digits carry cnt fuel s h l others pool,
  heap_is s ((h, l) :: others) (carry :: map cnt (seq 0 (digits + 1)) ++ pool) ->
  all_vals val l -> length l < 2 ^ digits -> length l + digits + 2 < fuel ->
  match s_sort V val throws digits carry cnt fuel lt h s with
  | Ret _ s' => exists l', heap_is s' ((h, l') :: others) (carry :: map cnt (seq 0 (digits + 1)) ++ pool) /\
                Permutation l' l /\ (strict_weak_order lt -> sorted_by val lt l')
  | Exn s' => thrown throws s' /\
      exists l', heap_is s' ((h, l') :: others) (carry :: map cnt (seq 0 (digits + 1)) ++ pool) /\
                 Permutation l' l
  | UB => False
  end.
Proof.
  intros V val throws lt digits carry cnt fuel s h l others pool H Hv Hl Hf. apply heap_wf in H.
  eapply (wp_conseq (s_sort V val throws digits carry cnt fuel lt h)).
  - apply (sort_wp V val throws lt digits carry cnt h (rings others) pool l s fuel H Hv Hl Hf).
  - intros ? s' (l' & W & P & S). exists l'. rewrite heap_wf. repeat split; auto; try apply W.
    intros O. apply sorted_leN. auto.
  - intros s' (T & l' & W & P). split; auto. exists l'. rewrite heap_wf. auto.
Qed.
Print Assumptions C30_sort.
Example C30_sort_hyp :
  heap_is (mem [(1, [7;5;9;4])] [3;12;13;14;15]) [(1, [7;5;9;4])] (3 :: map (fun i => 12 + i) (seq 0 (3 + 1))) /\
  all_vals some_val [7;5;9;4] /\ length [7;5;9;4] < 2 ^ 3 /\ strict_weak_order Nat.ltb.
Proof.
  split; [mem_ok|]. split; [|split; [cbn; lia|apply nat_lt_swo]].
  repeat (apply Forall_cons; [eexists; reflexivity|]). apply Forall_nil.
Qed.

(** the exception seen by the caller is that of the first comparison that threw,
    and sort returns normally only if none threw *)
Theorem C30_sort_propagates : forall (V : Type) (val : node -> option V) throws lt digits carry cnt fuel h s,
  match s_sort V val throws digits carry cnt fuel lt h s with
  | Ret _ s' => tk s <= tk s' /\ forall k, tk s <= k < tk s' -> throws k = false
  | Exn s' => exists k, tk s' = S k /\ tk s <= k /\ throws k = true /\
                        forall j, tk s <= j < k -> throws j = false
  | UB => True
  end.
Proof. intros. apply honest_sort. Qed.
Print Assumptions C30_sort_propagates.

(** ** C31: the documented stability of sort does not hold *)
Theorem C31_sort_stable_refuted :
  exists (val : node -> option nat) lt digits carry cnt fuel s h l s' l',
    strict_weak_order lt /\ all_vals val l /\
    heap_is s [(h, l)] (carry :: map cnt (seq 0 (digits + 1))) /\
    s_sort nat val (fun _ => false) digits carry cnt fuel lt h s = Ret tt s' /\
    heap_is s' [(h, l')] (carry :: map cnt (seq 0 (digits + 1))) /\
    ~ stable_of nat val lt l l'.
Proof.
  set (s := mem [(1, [4;5;7])] [3;12;13;14;15]).
  destruct (s_sort nat some_val (fun _ => false) 3 3 (fun i => 12 + i) 20 (fun a b => Nat.ltb (a / 2) (b / 2)) 1 s)
    as [[] s'| |] eqn:E; [|vm_compute in E; discriminate|vm_compute in E; discriminate].
  exists some_val, (fun a b => Nat.ltb (a / 2) (b / 2)), 3, 3, (fun i => 12 + i), 20, s, 1, [4;5;7], s', [5;4;7].
  split; [apply half_lt_swo|]. split; [repeat (apply Forall_cons; [eexists; reflexivity|]); apply Forall_nil|].
  split; [mem_ok|]. split; [exact E|]. split.
  - vm_compute in E. injection E as <-. mem_ok.
  - intros St. specialize (St 4). vm_compute in St. discriminate.
Qed.
Print Assumptions C31_sort_stable_refuted.

(** ** C32: the array of temporaries is never overrun.
    [counter digits cnt i] is undefined behaviour for [i > digits]; a list of
    fewer than [2^digits] elements never causes it, whatever the comparison
    does.  In the C++ code [digits] is 64 (or 32). *)
Theorem C32_sort_temporaries : forall (V : Type) (val : node -> option V) throws lt digits carry cnt fuel s h l others pool,
  heap_is s ((h, l) :: others) (carry :: map cnt (seq 0 (digits + 1)) ++ pool) ->
  all_vals val l -> length l < 2 ^ digits -> length l + digits + 2 < fuel ->
  s_sort V val throws digits carry cnt fuel lt h s <> UB.
Proof.
  intros V val throws lt digits carry cnt fuel s h l others pool H Hv Hl Hf E.
  assert (Q := C30_sort V val throws lt digits carry cnt fuel s h l others pool H Hv Hl Hf).
  now rewrite E in Q.
Qed.
Print Assumptions C32_sort_temporaries.

(** the bound is sharp: with one digit two elements overrun the array *)
Theorem C32_bound_sharp :
  exists (val : node -> option nat) s l fuel,
    heap_is s [(1, l)] (3 :: map (fun i => 12 + i) (seq 0 (1 + 1))) /\ all_vals val l /\
    length l = 2 ^ 1 /\ length l + 1 + 2 < fuel /\
    s_sort nat val (fun _ => false) 1 3 (fun i => 12 + i) fuel Nat.ltb 1 s = UB.
Proof.
  exists some_val, (mem [(1, [4;5])] [3;12;13]), [4;5], 30.
  split; [mem_ok|]. split; [repeat (apply Forall_cons; [eexists; reflexivity|]); apply Forall_nil|].
  split; [reflexivity|]. split; [cbn; lia|]. vm_compute. reflexivity.
Qed.
Print Assumptions C32_bound_sharp.

(** ** C33: merge.  [allow] tells which elements the other indices of the
    destination accept; the others stay in the source, in order. *)
Theorem C33_merge : forall (V : Type) (val : node -> option V) throws allow lt fuel s hx hy l0 l1 others pool,
  heap_is s ((hx, l0) :: (hy, l1) :: others) pool ->
  all_vals val l0 -> all_vals val l1 -> length l0 + length l1 < fuel ->
  strict_weak_order lt -> sorted_by val lt l0 -> sorted_by val lt l1 ->
  match s_merge V val throws allow fuel lt hx hy s with
  | Ret _ s' => exists m,
      heap_is s' ((hx, m) :: (hy, filter (fun n => negb (allow n)) l1) :: others) pool /\
      Permutation m (l0 ++ filter allow l1) /\
      sorted_by val lt m /\
      stable_of V val lt (l0 ++ filter allow l1) m
  | Exn s' => thrown throws s' /\ exists X Y,
      heap_is s' ((hx, X) :: (hy, Y) :: others) pool /\ Permutation (X ++ Y) (l0 ++ l1)
  | UB => False
  end.
Proof.
  intros V val throws allow lt fuel s hx hy l0 l1 others pool H H0 H1 Hf O S0 S1. apply heap_wf in H.
  eapply (wp_conseq (s_merge V val throws allow fuel lt hx hy)).
  - apply (merge_wp V val throws allow lt hx hy (rings others) pool fuel l0 l1 s H H0 H1 Hf).
  - intros ? s' W. exists (fst (mergeA allow (on2 V val lt) l0 l1)).
    rewrite mergeA_snd in W. rewrite heap_wf. split; [exact W|].
    assert (P := mergeA_perm allow (on2 V val lt) l0 l1). rewrite mergeA_snd in P.
    split; [|split].
    + pose proof (filter_split_perm allow l1). perm.
    + apply sorted_leN. apply mergeA_sorted; auto; now apply sorted_leN.
    + apply mergeA_stable; auto. now apply sorted_leN.
  - intros s' (T & X & Y & W & P). split; auto. exists X, Y. rewrite heap_wf. auto.
Qed.
Print Assumptions C33_merge.
Example C33_merge_hyp :
  heap_is (mem [(1, [4;6;9]); (2, [5;7;8])] []) [(1, [4;6;9]); (2, [5;7;8])] [] /\
  all_vals some_val [4;6;9] /\ all_vals some_val [5;7;8] /\ strict_weak_order Nat.ltb /\
  sorted_by some_val Nat.ltb [4;6;9] /\ sorted_by some_val Nat.ltb [5;7;8].
Proof.
  split; [mem_ok|].
  split; [repeat (apply Forall_cons; [eexists; reflexivity|]); apply Forall_nil|].
  split; [repeat (apply Forall_cons; [eexists; reflexivity|]); apply Forall_nil|].
  split; [apply nat_lt_swo|].
  split; repeat first [apply SSorted_nil | apply SSorted_cons | apply Forall_nil | apply Forall_cons];
    intros ? ? A B; injection A as <-; injection B as <-; reflexivity.
Qed.

Theorem C33_merge_propagates : forall (V : Type) (val : node -> option V) throws allow lt fuel hx hy s,
  match s_merge V val throws allow fuel lt hx hy s with
  | Ret _ s' => tk s <= tk s' /\ forall k, tk s <= k < tk s' -> throws k = false
  | Exn s' => exists k, tk s' = S k /\ tk s <= k /\ throws k = true /\
                        forall j, tk s <= j < k -> throws j = false
  | UB => True
  end.
Proof. intros. apply honest_merge. Qed.
Print Assumptions C33_merge_propagates.

(** ** C34: remove, unique, reverse *)
Theorem C34_remove : forall (V : Type) (val : node -> option V) throws pred fuel s h l others pool,
  heap_is s ((h, l) :: others) pool -> all_vals val l -> length l < fuel ->
  match s_remove V val throws fuel pred h s with
  | Ret _ s' => heap_is s' ((h, filter (fun x => negb (on1 V val pred x)) l) :: others) pool
  | Exn s' => thrown throws s' /\ exists l1 l2, l = l1 ++ l2 /\
      heap_is s' ((h, filter (fun x => negb (on1 V val pred x)) l1 ++ l2) :: others) pool
  | UB => False
  end.
Proof.
  intros V val throws pred fuel s h l others pool H Hv Hf. apply heap_wf in H.
  eapply (wp_conseq (s_remove V val throws fuel pred h)).
  - unfold s_remove, s_begin. eapply wp_begin; [exact H|].
    apply (remove_loop_wp V val throws pred h (rings others) pool l [] s fuel H Hv Hf).
  - intros ? s' W. rewrite heap_wf. exact W.
  - intros s' (T & l1 & l2 & E & W). split; auto. exists l1, l2. rewrite heap_wf. auto.
Qed.
Print Assumptions C34_remove.

Theorem C34_unique : forall (V : Type) (val : node -> option V) throws rel fuel s h l others pool,
  heap_is s ((h, l) :: others) pool -> all_vals val l -> length l < fuel ->
  match s_unique V val throws fuel rel h s with
  | Ret _ s' => heap_is s' ((h, uniq (on2 V val rel) l) :: others) pool
  | Exn s' => thrown throws s' /\ exists l1 l2, l = l1 ++ l2 /\
      heap_is s' ((h, uniq (on2 V val rel) l1 ++ l2) :: others) pool
  | UB => False
  end.
Proof.
  intros V val throws rel fuel s h l others pool H Hv Hf. apply heap_wf in H.
  change (wp (s_unique V val throws fuel rel h)
   (fun _ s' => heap_is s' ((h, uniq (on2 V val rel) l) :: others) pool)
   (fun s' => thrown throws s' /\ exists l1 l2, l = l1 ++ l2 /\
      heap_is s' ((h, uniq (on2 V val rel) l1 ++ l2) :: others) pool) s).
  unfold s_unique, s_begin. eapply wp_begin; [exact H|]. cbn [snd]. destruct l as [|f b].
  - cbn [hd]. rewrite Nat.eqb_refl. apply wp_ret. rewrite heap_wf. exact H.
  - assert (f <> h) by (eapply (not_end _ _ []); exact H). cbn [hd].
    destruct (Nat.eqb_spec f h); [easy|].
    eapply wp_conseq.
    + apply (unique_loop_wp V val throws rel h (rings others) pool b [] f s fuel H Hv). cbn in Hf. lia.
    + intros ? s' W. rewrite heap_wf. exact W.
    + intros s' (T & l1 & l2 & E & W). split; auto. exists (f :: l1), l2. rewrite heap_wf. subst b. auto.
Qed.
Print Assumptions C34_unique.

Theorem C34_reverse : forall fuel s h l others pool,
  heap_is s ((h, l) :: others) pool -> length l < fuel ->
  exists s', reverse fuel h s = Ret tt s' /\ heap_is s' ((h, rev l) :: others) pool.
Proof.
  intros fuel s h l others pool H Hf. apply heap_wf in H.
  destruct (exec_sop_spec fuel h (rings others) SReverse s l pool (rev l) pool) as (s' & E & W & _); auto.
  - apply st_reverse.
  - exists s'. rewrite heap_wf. auto.
Qed.
Print Assumptions C34_reverse.
Example C34_hyp :
  heap_is (mem [(1, [4;5;7;6])] []) [(1, [4;5;7;6])] [] /\ all_vals some_val [4;5;7;6].
Proof.
  split; [mem_ok|]. repeat (apply Forall_cons; [eexists; reflexivity|]). apply Forall_nil.
Qed.

Theorem C34_remove_unique_propagate : forall (V : Type) (val : node -> option V) throws pred rel fuel h s,
  (match s_remove V val throws fuel pred h s with
   | Ret _ s' => tk s <= tk s' /\ forall k, tk s <= k < tk s' -> throws k = false
   | Exn s' => exists k, tk s' = S k /\ tk s <= k /\ throws k = true /\
                         forall j, tk s <= j < k -> throws j = false
   | UB => True
   end) /\
  (match s_unique V val throws fuel rel h s with
   | Ret _ s' => tk s <= tk s' /\ forall k, tk s <= k < tk s' -> throws k = false
   | Exn s' => exists k, tk s' = S k /\ tk s <= k /\ throws k = true /\
                         forall j, tk s <= j < k -> throws j = false
   | UB => True
   end).
Proof. intros. split; [apply honest_remove|apply honest_unique]. Qed.
Print Assumptions C34_remove_unique_propagate.

(** ** C35: splice of a range from another container.

    What does hold: if the position is end() or no call to user code throws. *)
Theorem C35_range_splice_partial : forall throws allow fuel s hx l1 l2 hy a seg b others pool,
  heap_is s ((hx, l1 ++ l2) :: (hy, a ++ seg ++ b) :: others) pool -> length seg < fuel ->
  l2 = [] \/ (forall n, throws n = false) ->
  match external_splice_range throws allow fuel hx (hd hx l2) (hd hy (seg ++ b)) (hd hy b) s with
  | Ret _ s' => heap_is s' ((hx, l1 ++ filter allow seg ++ l2) ::
                            (hy, a ++ filter (fun n => negb (allow n)) seg ++ b) :: others) pool
  | Exn s' => thrown throws s' /\ exists seg1 seg2, seg = seg1 ++ seg2 /\
      heap_is s' ((hx, l1 ++ filter allow seg1 ++ l2) ::
                  (hy, a ++ filter (fun n => negb (allow n)) seg1 ++ seg2 ++ b) :: others) pool
  | UB => False
  end.
Proof.
  intros throws allow fuel s hx l1 l2 hy a seg b others pool H L C. apply heap_wf in H.
  eapply (wp_conseq (external_splice_range throws allow fuel hx (hd hx l2) (hd hy (seg ++ b)) (hd hy b))).
  - apply (external_splice_range_wp nat (fun _ => None) throws allow hx l1 l2 hy a seg b (rings others) pool s fuel H L C).
  - intros ? s' W. rewrite heap_wf. exact W.
  - intros s' (T & s1 & s2 & E & W). split; auto. exists s1, s2. rewrite heap_wf. auto.
Qed.
Print Assumptions C35_range_splice_partial.
Example C35_hyp : heap_is (mem [(1, [4;5]); (2, [6;7;8])] []) [(1, [4] ++ [5]); (2, [] ++ [6;7] ++ [8])] [].
Proof. mem_ok. Qed.

(** splice of a single element: strong guarantee *)
Theorem C35_single_splice : forall throws allow s hx l1 l2 hy a n b others pool,
  heap_is s ((hx, l1 ++ l2) :: (hy, a ++ n :: b) :: others) pool ->
  match external_splice1 throws allow hx (hd hx l2) n s with
  | Ret r s' => r = allow n /\
      if allow n then heap_is s' ((hx, l1 ++ n :: l2) :: (hy, a ++ b) :: others) pool
      else heap_is s' ((hx, l1 ++ l2) :: (hy, a ++ n :: b) :: others) pool
  | Exn s' => thrown throws s' /\ heap_is s' ((hx, l1 ++ l2) :: (hy, a ++ n :: b) :: others) pool
  | UB => False
  end.
Proof.
  intros throws allow s hx l1 l2 hy a n b others pool H. apply heap_wf in H.
  eapply (wp_conseq (external_splice1 throws allow hx (hd hx l2) n)).
  - apply (external_splice1_wp throws allow hx l1 l2 hy a n b (rings others) pool s H).
  - intros r s' [E W]. split; auto. destruct (allow n); rewrite heap_wf; exact W.
  - intros s' [T W]. rewrite heap_wf. auto.
Qed.
Print Assumptions C35_single_splice.

(** With a position different from end() and a throw during the transfer, the
    exception is swallowed and the destination is no longer a list: iterating
    forward never reaches end(), whatever sequences are proposed. *)
Theorem C35_range_splice_refuted :
  exists throws allow fuel s s',
    heap_is s [(1, [4;5]); (2, [6;7;8])] [] /\
    throws 0 = true /\
    external_splice_range throws allow fuel 1 4 6 2 s = Ret tt s' /\
    tk s' = 1 /\
    forall lx ly pool, ~ heap_is s' [(1, lx); (2, ly)] pool.
Proof.
  set (s := mem [(1, [4;5]); (2, [6;7;8])] []).
  destruct (external_splice_range (fun k => k =? 0) (fun _ => true) 20 1 4 6 2 s)
    as [[] s'| |] eqn:E; [|vm_compute in E; discriminate|vm_compute in E; discriminate].
  exists (fun k => k =? 0), (fun _ => true), 20, s, s'.
  split; [mem_ok|]. split; [reflexivity|]. split; [exact E|].
  split; [vm_compute in E; injection E as <-; reflexivity|].
  intros lx ly pool (H & _ & _). inversion_clear H as [|? ? [Hf _] _]. cbn [fst snd] in Hf.
  assert (N1 : nx s' 1 = Some 4) by (vm_compute in E; injection E as <-; reflexivity).
  assert (N4 : nx s' 4 = Some 5) by (vm_compute in E; injection E as <-; reflexivity).
  assert (N5 : nx s' 5 = Some 4) by (vm_compute in E; injection E as <-; reflexivity).
  assert (G : forall l x, x = 4 \/ x = 5 -> ~ follow (nx s') x (l ++ [1])).
  { induction l as [|y l IH]; intros x Hx Hl; cbn in Hl; destruct Hl as [Hl Hl'].
    - destruct Hx as [-> | ->]; congruence.
    - apply (IH y); [|exact Hl']. destruct Hx as [-> | ->]; [right|left]; congruence. }
  destruct lx as [|y lx]; cbn in Hf; destruct Hf as [Hf Hf'].
  - congruence.
  - apply (G lx y); [left; congruence|exact Hf'].
Qed.
Print Assumptions C35_range_splice_refuted.

(** ** C36: rearrange *)
Theorem C36_rearrange_sequenced : forall s h l view others pool,
  heap_is s ((h, l) :: others) pool -> Permutation l view ->
  exists s', s_rearrange h view s = Ret tt s' /\ heap_is s' ((h, view) :: others) pool.
Proof.
  intros s h l view others pool H P. apply heap_wf in H.
  destruct (s_rearrange_spec s h [] l view (rings others) pool) as (s' & E & W & _); auto.
  - rewrite app_nil_r. exact H.
  - exists s'. rewrite heap_wf. auto.
Qed.
Print Assumptions C36_rearrange_sequenced.
Example C36_hyp : heap_is (mem [(1, [4;5;6])] []) [(1, [4;5;6])] [] /\ Permutation [4;5;6] [6;4;5].
Proof. split; [mem_ok|]. perm. Qed.

(** ** Part of C44: the rearranger of the loader.  [position] is the node placed
    last (null at the start): [x] becomes its successor, and what was already placed stays. *)
Theorem C44_sequenced_rearranger : forall s h placed a x b others pool position,
  heap_is s ((h, placed ++ a ++ x :: b) :: others) pool ->
  ~ In null (h :: placed) ->
  position = match placed with [] => null | _ => last placed null end ->
  exists s', s_rearranger h position x s = Ret tt s' /\
             heap_is s' ((h, placed ++ x :: a ++ b) :: others) pool.
Proof.
  intros s h placed a x b others pool position H N Hp. apply heap_wf in H.
  destruct (rearranger_spec s h placed (a ++ x :: b) x a b (rings others) pool position) as (s' & E & W & _); auto.
  - intros ->. apply N. left. reflexivity.
  - subst position. destruct placed as [|p placed]; [auto|left].
    destruct (exists_last (l := p :: placed)) as (q & z & ->); [easy|]. now rewrite !last_last.
  - intros E. apply N. destruct placed as [|p placed]; [left; exact E|right].
    destruct (exists_last (l := p :: placed)) as (q & z & G); [easy|]. rewrite G in *.
    rewrite last_last in E. rewrite in_app_iff. cbn. auto.
  - exists s'. rewrite heap_wf. auto.
Qed.
Print Assumptions C44_sequenced_rearranger.
Example C44_sequenced_hyp :
  heap_is (mem [(1, [4;5;6;7])] []) [(1, [4] ++ [5] ++ 6 :: [7])] [] /\ ~ In null [1;4].
Proof. split; [mem_ok|]. cbn. unfold null. lia. Qed.

(** ** Part of C47: copy of a sequenced index.  [m] maps nodes of the original to
    the freshly allocated nodes of the copy. *)
Theorem C47_sequenced_copy : forall m fuel s hx l others pool,
  heap_is s ((hx, l) :: others) (m hx :: map m l ++ pool) -> length l < fuel ->
  exists s', s_copy fuel m hx (m hx) s = Ret tt s' /\
             heap_is s' ((m hx, map m l) :: (hx, l) :: others) pool.
Proof.
  intros m fuel s hx l others pool H L. apply heap_wf in H.
  destruct (copy_spec m s hx l (rings others) pool fuel H L) as (s' & E & W & _).
  exists s'. rewrite heap_wf. auto.
Qed.
Print Assumptions C47_sequenced_copy.
Example C47_sequenced_hyp :
  let m := fun x => x + 10 in heap_is (mem [(1, [4;5])] [11;14;15]) [(1, [4;5])] (m 1 :: map m [4;5] ++ []).
Proof. mem_ok. Qed.

(** ** Part of C50: clear frees every node of the list once and touches nothing
    else (freeing a node twice is undefined behaviour in the model). *)
Theorem C50_sequenced_delete_all : forall fuel s h l others pool,
  heap_is s ((h, l) :: others) pool -> length l + 1 < fuel ->
  exists s', s_delete_all fuel h s = Ret tt s' /\
    (forall y, In y l -> nx s' y = None /\ pr s' y = None) /\
    (forall y, ~ In y l -> nx s' y = nx s y /\ pr s' y = pr s y).
Proof.
  intros fuel s h l others pool H L. apply heap_wf in H. eapply delete_all_spec; eauto.
Qed.
Print Assumptions C50_sequenced_delete_all.
Example C50_sequenced_hyp : heap_is (mem [(1, [4;5]); (2, [6])] [9]) [(1, [4;5]); (2, [6])] [9].
Proof. mem_ok. Qed.
