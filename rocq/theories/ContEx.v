(** Concrete containers, used to show that the hypotheses of theorems are met and that claims
    fail. *)
From Verif Require Import Prelude SeqSpec OrdModel OrdSpec Layer Stack View Container Iops History ContSpec Client.
Set Implicit Arguments.

Section Play.
Variable V : Type.
Variable throws : nat -> bool.
Variable pick : list node -> node.
Variable hd : node.
Variable cs : list (code V).
Notation box := (box throws pick hd cs).
Notation exec_box := (@exec_box V throws pick hd cs).
Notation op := (op V (nat * iop V)).

(** the state and the ledger after the operations *)
Fixpoint play (os : list op) (s : St box) (lk nh : list node) : St box * (list node * list node) :=
  match os with
  | [] => (s, (lk, nh))
  | o :: os => match exec_box o s with
               | Ret r s' => play os s' (fst (ledger o (Some r) lk nh)) (snd (ledger o (Some r) lk nh))
               | Exn s' => play os s' (fst (ledger o None lk nh)) (snd (ledger o None lk nh))
               | UB => (s, (lk, nh))
               end
  end.
Fixpoint playable (os : list op) (s : St box) (lk nh : list node) : Prop :=
  match os with
  | [] => True
  | o :: os => @allowed_box V throws pick hd cs s lk nh o /\
               match exec_box o s with
               | Ret r s' => playable os s' (fst (ledger o (Some r) lk nh)) (snd (ledger o (Some r) lk nh))
               | Exn s' => playable os s' (fst (ledger o None lk nh)) (snd (ledger o None lk nh))
               | UB => False
               end
  end.
Lemma play_reach os : forall s lk nh, @reachable V throws pick hd cs s lk nh -> playable os s lk nh ->
  @reachable V throws pick hd cs (fst (play os s lk nh)) (fst (snd (play os s lk nh))) (snd (snd (play os s lk nh))).
Proof.
  induction os as [|o os IH]; intros s lk nh R P; cbn; auto. destruct P as (A & P).
  destruct (exec_box o s) as [r s'|s'|] eqn:E; [| |easy].
  - apply IH; auto. exact (reach_ret o R A E).
  - apply IH; auto. exact (reach_exn o R A E).
Qed.
Lemma start_reach n : @reachable V throws pick hd cs (start throws pick hd cs n) [] [].
Proof. apply reach_init. now exists n. Qed.
End Play.

(** memory is handed out in increasing order *)
Definition next_node (l : list node) : node := S (list_max l).
Lemma next_node_ok l : ~ In (next_node l) (null :: l).
Proof.
  unfold next_node. intros [H|I]; [discriminate|].
  assert (F : Forall (fun k => k <= list_max l) l) by now apply list_max_le.
  rewrite Forall_forall in F. apply F in I. lia.
Qed.
Definition junk0 : cell := mk 0 0 0 Red 0.
Definition by_id (uniq : bool) : code nat := Ordered (fun v : nat => v) Nat.ltb uniq false junk0.
(** the key is half the value; ranked *)
Definition by_half : code nat := Ordered (fun v : nat => v / 2) Nat.ltb false true junk0.
Definition four : list (code nat) := [by_id true; Sequenced nat 0 0; by_half; RandomAccess nat 0].
Lemma nat_swo : swo Nat.ltb.
Proof. split; intros *; rewrite ?Nat.ltb_irrefl, ?Nat.ltb_lt, ?Nat.ltb_ge; lia. Qed.
Lemma four_ok : setting next_node 1 four.
Proof.
  split; [apply next_node_ok| |easy|easy].
  repeat (constructor; [first [exact nat_swo|exact I]|]). constructor.
Qed.
Lemma one_ok u : setting next_node 1 [by_id u].
Proof. split; [apply next_node_ok| |easy|easy]. constructor; [exact nat_swo|constructor]. Qed.

(** 6 8 5 inserted, 7 inserted before 8 in the index by value; the call number 23 throws *)
Definition at23 (n : nat) : bool := n =? 23.
Definition some_ops : list (op nat (nat * iop nat)) :=
  [Insert _ 6 None; Insert _ 8 None; Insert _ 5 None; Insert _ 7 (Some 3)].
Definition some_play := play at23 next_node 1 four some_ops (start at23 next_node 1 four 0) [] [].
Definition some_state : St (box at23 next_node 1 four) := fst some_play.
Lemma some_reach : reachable at23 next_node 1 four some_state [5; 4; 3; 2] [].
Proof.
  assert (P : playable at23 next_node 1 four some_ops (start at23 next_node 1 four 0) [] []).
  { vm_compute. repeat split; auto. }
  apply play_reach in P; [|apply start_reach]. vm_compute in P |- *. exact P.
Qed.
Lemma some_sequences : sequences at23 next_node 1 four some_state =
  Some [[4; 2; 5; 3]; [2; 3; 4; 5]; [4; 2; 5; 3]; [2; 3; 4; 5]].
Proof. vm_compute. reflexivity. Qed.
Lemma some_calls : calls at23 next_node 1 four some_state = 18.
Proof. vm_compute. reflexivity. Qed.
Notation some_box := (box at23 next_node 1 four).
(** what is left after an operation: how it ended, the sequences of the indices *)
Definition seen {A} (o : out (St some_box) A) : nat * option (list (list node)) :=
  match o with
  | Ret _ s => (0, sequences at23 next_node 1 four s)
  | Exn s => (1, sequences at23 next_node 1 four s)
  | UB => (2, None)
  end.

(** with hashed indices: one by value, and one by half of the value with a poor hash function which
    is full, and asks for more buckets, from the third element on *)
Definition pol1 : HashIdx.policy := HashIdx.mkP (fun b => b) (fun n => 1 + n) (fun n => n).
Definition pol3 : HashIdx.policy := HashIdx.mkP (fun _ => 2) (fun n => 60 + n) (fun n => n).
Definition jh0 := (HashModel.PN 0, HashModel.PN 0).
Definition hash_id (uniq : bool) : code nat := Hashed (fun v : nat => v) Nat.eqb (fun k => k) uniq jh0 0 pol1.
Definition hash_half : code nat := Hashed (fun v : nat => v / 2) Nat.eqb (fun k => 100 - k) false jh0 0 pol3.
Definition three : list (code nat) := [hash_half; by_id false; hash_id true].
Lemma nat_heq h : HashSpec.heq_ok Nat.eqb h.
Proof.
  split.
  - intros x. apply Nat.eqb_refl.
  - intros x y H. apply Nat.eqb_eq in H. subst. apply Nat.eqb_refl.
  - intros x y z H1 H2. apply Nat.eqb_eq in H1, H2. subst. apply Nat.eqb_refl.
  - intros x y H. apply Nat.eqb_eq in H. now subst.
Qed.
Lemma three_ok : setting next_node 1 three.
Proof.
  split; [apply next_node_ok| |easy|easy].
  repeat (constructor; [first [exact nat_swo|apply nat_heq|exact I]|]). constructor.
Qed.
Definition at60 (n : nat) : bool := n =? 60.
Definition hash_ops : list (op nat (nat * iop nat)) :=
  [Insert _ 6 None; Insert _ 8 None; Insert _ 5 None; Insert _ 7 None; Insert _ 9 None].
Definition hash_play := play at60 next_node 1 three hash_ops (start at60 next_node 1 three 0) [] [].
Definition hash_state : St (box at60 next_node 1 three) := fst hash_play.
Notation hash_box := (box at60 next_node 1 three).
Notation hash_seqs := (sequences at60 next_node 1 three).
Lemma hash_reach : reachable at60 next_node 1 three hash_state [6; 5; 4; 3; 2] [].
Proof.
  assert (P : playable at60 next_node 1 three hash_ops (start at60 next_node 1 three 0) [] []).
  { vm_compute. repeat split; auto. }
  apply play_reach in P; [|apply start_reach]. vm_compute in P |- *. exact P.
Qed.
Lemma hash_sequences : hash_seqs hash_state = Some [[6; 3; 5; 2; 4]; [4; 2; 5; 3; 6]; [2; 3; 4; 5; 6]].
Proof. vm_compute. reflexivity. Qed.
(** how an operation ended, and the sequences of the indices *)
Definition hash_seen {A} (o : out (St hash_box) A) : nat * option (list (list node)) :=
  match o with Ret _ s => (0, hash_seqs s) | Exn s => (1, hash_seqs s) | UB => (2, None) end.
