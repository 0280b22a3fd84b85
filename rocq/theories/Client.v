(** A container with its own memory, as seen by a client. *)
From Verif Require Import Prelude Layer LayerBase Stack View Container ContOk Iops History ContSpec.
Set Implicit Arguments.

Section Client.
Variable V : Type.
Variable throws : nat -> bool.
Variable pick : list node -> node.
Variable dv : V.
Variable hd : node.
Variable cs : list (code V).

(** multi_index_container<V, indexed_by<cs...>>, multi_index_container.hpp:73-97 *)
Definition box : Layer V := stack throws pick hd (mem_world V) cs.
(** a container just constructed, multi_index_container.hpp:172-215: nothing but its header node is
    allocated, and [n] calls to user code have been made *)
Definition start (n : nat) : St box := fresh throws pick hd (mem_world V) cs (mkB [(hd, None)] n).

(** ** observations *)
(** iterating over each of the indices, from begin() to end() *)
Definition sequences (s : St box) : option (list (list node)) := views throws pick hd (mem_world V) cs s.
Definition count (s : St box) : nat := cget box s.                        (* size() *)
Definition value_of (s : St box) (x : node) : V := val dv (bget box s) x.  (* *it *)
Definition memory (s : St box) : list (node * option V) := mem (bget box s).
Definition calls (s : St box) : nat := tk (bget box s).

(** operation [fst o] applied to the index number [snd o] *)
Definition run_index (o : nat * iop V) : M (St box) unit := at_index throws pick hd (mem_world V) cs (fst o) (snd o).
Definition can_index (s : St box) (o : nat * iop V) : Prop := at_allowed throws pick hd (mem_world V) cs s (fst o) (snd o).
(** [reachable s lk nh]: some client arrives at [s] after any number of operations, any of which may have failed or
    thrown, [lk] being the elements and [nh] the nodes owned by its node handles *)
Definition reachable : St box -> list node -> list node -> Prop :=
  reach throws pick hd box run_index can_index (fun s => exists n, s = start n).
Definition exec_box := exec throws pick hd box run_index.
Definition allowed_box := allowed (V := V) hd box can_index.

(** the allocator returns nodes which are not in use, the comparisons are as required, there are
    indices, and the header node is not null *)
Record setting : Prop := mkSet {
  s_pick : forall l, ~ In (pick l) (null :: l);
  s_codes : Forall (@code_ok V) cs;
  s_index : cs <> [];
  s_hd : hd <> null }.

(** everything is as it should be: [ls] are the sequences of the indices *)
Record sane (s : St box) (lk nh : list node) (ls : list (list node)) : Prop := mkSane {
  sn_seq : sequences s = Some ls;
  sn_len : length ls = length cs;
  sn_perm : Forall (fun l => NoDup l /\ Permutation l lk) ls;
  sn_legal : Forall2 (fun c l => legal c (value_of s) l) cs ls;
  sn_count : count s = length lk;
  sn_dist : NoDup (null :: hd :: lk ++ nh);
  sn_mem : Permutation (map fst (memory s)) (hd :: lk ++ nh);
  sn_live : forall x, In x (lk ++ nh) -> live (bget box s) x }.

(** an operation which had no effect *)
Definition no_effect (s s' : St box) (ls : list (list node)) : Prop :=
  memory s' = memory s /\ count s' = count s /\
  exists ls', sequences s' = Some ls' /\ each (fun c => untouched c (value_of s)) cs ls ls'.

(** ** from the proofs *)
Notation S0 := (spec hd (fun _ (_ : unit) => False) (fun _ a => a) cs).
Notation rep0 := (srep throws pick hd (mem_world V) (fun _ (_ : unit) => True) (fun _ _ => False) (fun _ a => a) cs).
Notation good := (@ContOk.good V dv hd box S0 rep0).

Hypothesis St_ : setting.
Lemma box_ok : OK throws pick dv hd box S0 rep0 (@sshell V throws pick hd (mem_world V) unit (fun _ _ => True) cs).
Proof. apply stack_ok; [apply St_|apply mem_world_ok|apply St_]. Qed.

Lemma good_views s a lk nh : good s a lk nh -> sequences s = Some (els S0 a).
Proof.
  intros [R I C A M]. eapply views_ok; [exact R|]. eapply Forall_impl; [|apply (i_perm I)]. intros l P.
  cbv beta in P. rewrite (Permutation_length P). unfold box in C. rewrite C. lia.
Qed.
Lemma good_sane s a lk nh : good s a lk nh -> (forall x, In x nh -> live (bget box s) x) -> sane s lk nh (els S0 a).
Proof.
  intros G Lv. assert (Vw := good_views G). destruct G as [R I C A M]. split; auto.
  - apply spec_len.
  - eapply Forall_impl; [|apply (i_perm I)]. intros l P. split; auto. eapply NoDup_perm; [symmetry; exact P|apply (Layer.i_nd I)].
  - apply to_legal in A; [exact A|apply St_].
  - eapply NoDup_perm; [|apply (i_mem I)]. constructor. exact M.
  - intros x. rewrite in_app_iff. intros [J|J]; [now apply (i_live I)|auto].
Qed.
Lemma start_good n : exists a, good (start n) a [] [].
Proof.
  set (b := mkB [(hd, @None V)] n).
  assert (B : bget box (start n) = b) by (unfold box, start; now rewrite wld_get, wld_fresh).
  exists (empty hd (fun _ (_ : unit) => False) (fun _ a => a) cs tt). split.
  - apply (fresh_rep throws pick dv (mem_world V)); [apply (s_hd St_)|exact I].
  - rewrite B. split; cbn.
    + constructor.
    + apply Forall_forall. intros l Il. apply empty_els in Il. now subst.
    + easy.
    + constructor; [|constructor; [easy|constructor]]. cbn. intros [E|[]]. now apply (s_hd St_).
    + now rewrite Nat.eqb_refl.
  - unfold box, start. apply fresh_cget.
  - apply empty_ok.
  - rewrite B. reflexivity.
Qed.
Lemma index_good s a lk out o : good s a lk out -> can_index s o ->
  wp (run_index o) (fun _ s' => mem (bget box s') = mem (bget box s) /\ exists a', good s' a' lk out)
     (fun s' => mem (bget box s') = mem (bget box s) /\ exists a', good s' a' lk out) s.
Proof.
  intros G A. destruct (at_good (s_pick St_) (mem_world_ok V) (s_codes St_) G A) as (c & l & _ & _ & _ & W).
  eapply wp_conseq; [exact W| |].
  - intros ? s' (a' & l' & D & G'). split; [apply D|eauto].
  - intros s' (a' & l' & D & G'). split; [apply D|eauto].
Qed.
Lemma has_index (a : AV S0) : els S0 a <> [].
Proof.
  assert (N := s_index St_). clear - N. revert a. destruct cs as [|c l]; [easy|]. intros a. apply spec_index.
Qed.
Lemma reachable_good s lk nh : reachable s lk nh -> state_ok dv hd box S0 rep0 s lk nh.
Proof.
  intros R. eapply (reach_ok (s_pick St_) box_ok); [..|exact R].
  - exact has_index.
  - intros x a. apply spec_ready.
  - intros. eapply index_good; eauto.
  - intros s0 (n & ->). destruct (start_good n) as (a & G). split; [eauto|easy].
Qed.
Lemma reachable_safe s lk nh o : reachable s lk nh -> allowed_box s lk nh o -> exec_box o s <> UB.
Proof.
  intros R. eapply (reach_safe (s_pick St_) box_ok); [..|exact R].
  - exact has_index.
  - intros x a. apply spec_ready.
  - intros. eapply index_good; eauto.
  - intros s0 (n & ->). destruct (start_good n) as (a & G). split; [eauto|easy].
Qed.
(** what the theorems below start from *)
Lemma open s lk nh ls : reachable s lk nh -> sequences s = Some ls ->
  exists a, good s a lk nh /\ ls = els S0 a /\ forall x, In x nh -> live (bget box s) x.
Proof.
  intros R Sq. destruct (reachable_good R) as ((a & G) & Lv). exists a. splits; auto.
  apply good_views in G. congruence.
Qed.
Lemma kept_none s s' a lk nh : good s a lk nh -> @kept V dv hd box S0 rep0 s s' a lk nh -> no_effect s s' (els S0 a).
Proof.
  intros G (M & a' & G' & A). unfold no_effect. splits; auto.
  - unfold count. transitivity (length lk); [apply (g_cnt G')|symmetry; apply (g_cnt G)].
  - exists (els S0 a'). split; [now apply good_views in G'|]. apply to_untouched in A; [exact A|apply St_|apply (g_ok G)].
Qed.
End Client.
